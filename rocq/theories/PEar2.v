(** Ear clipping. *)
From Coq Require Import Reals ZArith Lra Lia Bool List Psatz Permutation.
From Verif Require Import Base Arith ArithR ArithF MPoint MLine MPoly MTri Spec SpecInside SpecGroup SpecTri
  PPoint PLine PShape PPoly PCommon PConvex POrder PMore PInside PTri PSplit PCorner PCollinear PEar.
Import ListNotations.
Local Open Scope R_scope.
#[local] Existing Instance RA.

(** * Triangles *)
Lemma orient_perm : forall l l' : list (pt RA), Permutation l l' -> forall a b c x y z, l = [a; b; c] -> l' = [x; y; z] ->
  Rabs (orient x y z) = Rabs (orient a b c).
Proof.
  induction 1 as [|u l l' P IH|u v l|l l' l'' P1 IH1 P2 IH2]; intros a b c x y z E E'; try discriminate.
  - injection E as -> ->. injection E' as -> ->. apply Permutation_length_2 in P as [[-> ->]|[-> ->]]; auto.
    rewrite <- Rabs_Ropp. f_equal. unfold orient. ring.
  - injection E as -> -> ->. injection E' as -> -> ->. rewrite <- Rabs_Ropp. f_equal. unfold orient. ring.
  - subst. pose proof (Permutation_length P1) as LE. destruct l' as [|x' [|y' [|z' [|? ?]]]]; cbn in LE; try lia.
    rewrite (IH2 x' y' z' x y z); auto.
Qed.

Lemma triangle_of : forall (a p b : pt RA) g, NoDup [a; p; b] -> separated [a; p; b] -> polygon_of [a; p; b] g -> 0 < Rabs (orient a p b) ->
  exists tri, triangle_new g = Ok tri /\ rearranged tri g /\ polygon_of [a; p; b] tri /\ triangle_area tri = Ok (Rabs (orient a p b) / 2) /\
    Permutation (point_set tri) [a; p; b].
Proof.
  intros a p b g ND SEP PO OR. pose proof PO as (cyc & PM & F).
  destruct (order_spec [a; p; b] g cyc ltac:(cbn; lia) ND SEP F PM) as (us & tri & EO & RE & PU & EM & _ & CL & _).
  assert (PT : polygon_of [a; p; b] tri) by (apply (polygon_rearranged _ g); auto).
  pose proof (Permutation_length PU) as LU. destruct us as [|x [|y [|z [|? ?]]]]; cbn in LU; try lia.
  assert (FJ : Forall2 joins (cycle_edges [x; y; z]) tri).
  { rewrite <- EM. clear. induction tri; cbn; constructor; auto. left. auto. }
  assert (AR : triangle_area tri = Ok (Rabs (orient a p b) / 2)).
  { rewrite (heron_area x y z tri FJ), (orient_perm _ _ (Permutation_sym PU) a p b x y z); auto. }
  destruct (point_set_spec tri) as [N1 P1].
  assert (PS : Permutation (point_set tri) [a; p; b]).
  { apply NoDup_Permutation; auto. intros q. rewrite P1. apply polygon_ends. auto. }
  exists tri. split; [|auto]. unfold triangle_new. rewrite EO. cbn [bind]. unfold is_triangle.
  rewrite (Permutation_length PS). apply Forall2_len in FJ. rewrite <- FJ. cbn [length cycle_edges combine app Nat.eqb andb negb].
  rewrite CL, AR. cbn [bind]. unfold n0. ra.
  replace (Rltb 0 (Rabs (orient a p b) / 2)) with true by (symmetry; apply Rltb_true; lra). reflexivity.
Qed.

(** * One round *)
Lemma as_in_turn : forall tri (s : seg RA), as_in tri s = s \/ as_in tri s = mkseg (sc s) (sj s) (si s).
Proof. intros. unfold as_in. destruct (existsb _ tri); auto. destruct (existsb _ tri); auto. Qed.
Lemma as_in_rearranged : forall tri (c : list (seg RA)), rearranged (map (as_in tri) c) c.
Proof. intros. exists c. split; auto. induction c; cbn; constructor; auto. apply as_in_turn. Qed.
Lemma as_in_In : forall tri (s : seg RA), In s tri \/ In (seg_reverse s) tri -> In (as_in tri s) tri.
Proof.
  intros tri s H. unfold as_in. destruct (existsb (seg_sameb s) tri) eqn:E1.
  - apply existsb_exists in E1 as (x & I & E). apply seg_sameb_iff in E. subst. auto.
  - destruct (existsb (seg_sameb (seg_reverse s)) tri) eqn:E2.
    + apply existsb_exists in E2 as (x & I & E). apply seg_sameb_iff in E. rewrite E. auto.
    + exfalso. destruct H as [H|H].
      * assert (existsb (seg_sameb s) tri = true) by (apply existsb_exists; exists s; split; auto; apply seg_sameb_iff; auto). congruence.
      * assert (existsb (seg_sameb (seg_reverse s)) tri = true) by (apply existsb_exists; eexists; split; eauto; apply seg_sameb_iff; auto). congruence.
Qed.
Lemma as_in_out : forall tri (s : seg RA), (forall x, In x tri -> ~ (si x = si s /\ sj x = sj s) /\ ~ (si x = sj s /\ sj x = si s)) -> as_in tri s = s.
Proof.
  intros tri s H. unfold as_in. destruct (existsb (seg_sameb s) tri) eqn:E1; auto.
  destruct (existsb (seg_sameb (seg_reverse s)) tri) eqn:E2; auto. exfalso.
  apply existsb_exists in E2 as (x & I & E). apply seg_sameb_iff in E. subst x. apply H in I. cbn in I. tauto.
Qed.
Lemma rearranged_In : forall (l g : list (seg RA)) s, rearranged l g -> In s g -> In s l \/ In (seg_reverse s) l.
Proof.
  intros l g s (g' & P & F) I. apply (Permutation_in _ (Permutation_sym P)) in I. clear P.
  induction F as [|x y l g' E F IH]; [destruct I|]. destruct I as [->|I].
  - destruct E as [->| ->]; cbn; auto.
  - destruct (IH I); cbn; auto.
Qed.
Lemma rearranged_In' : forall (l g : list (seg RA)) s, rearranged l g -> In s l -> exists x, In x g /\ (s = x \/ s = seg_reverse x).
Proof.
  intros l g s (g' & P & F) I. 
  assert (exists x, In x g' /\ (s = x \/ s = seg_reverse x)) as (x & H & E).
  { clear P. induction F as [|x y l g' E F IH]; [destruct I|]. destruct I as [->|I].
    - exists y. cbn. auto.
    - destruct (IH I) as (z & ? & ?). exists z. cbn. auto. }
  exists x. split; auto. apply (Permutation_in _ P); auto.
Qed.

Lemma pairs_snoc_In : forall X (m : list X) a x y, In (x, y) (pairs (m ++ [a])) -> In x m.
Proof.
  intros X m a x y. induction m as [|z m IH]; cbn [app]; [cbn; tauto|]. destruct m as [|z' m].
  - cbn. intros [E|[]]. injection E as -> _. auto.
  - cbn [app] in *. cbn [pairs]. intros [E|I]; [injection E as -> _; cbn; auto|]. right. apply IH. exact I.
Qed.

(** What is left of the polygon after cutting off the ear. *)
Lemma cut_ear : forall a p b r c s t mid new tri, NoDup (a :: p :: b :: r) -> separated (a :: p :: b :: r) ->
  corner_parts a p b r c s t mid -> joins (a, b) new ->
  rearranged tri (find_segment_by_point c p WBoth ++ [new]) ->
  let c' := filter (fun x => negb (existsb (seg_eqb x) tri)) (map (as_in tri) c) ++ [as_in tri new] in
  (r <> [] -> polygon_of (a :: b :: r) c') /\ (r = [] -> Permutation (point_set c') [a; b]).
Proof.
  intros a p b r c s t mid new tri ND SEP C J RE c'.
  assert (GI : forall x, In x (find_segment_by_point c p WBoth ++ [new]) <-> x = s \/ x = t \/ x = new).
  { intros x. rewrite in_app_iff. destruct (cp_find _ _ _ _ _ _ _ _ C) as [-> | ->]; cbn; intuition. }
  assert (JN : joins (a, b) (as_in tri new)).
  { destruct (as_in_turn tri new) as [E|E]; eapply joins_turn; try exact J; rewrite E; auto. }
  assert (DI : a <> p /\ p <> b /\ a <> b /\ ~ In p r) by (rewrite !NoDup_cons_iff in ND; cbn [In] in ND; intuition congruence).
  destruct DI as (Dap & Dpb & Dab & Dpr).
  assert (OUT : forall x, In x [s; t] -> negb (existsb (seg_eqb (as_in tri x)) tri) = false).
  { intros x I. assert (In x (find_segment_by_point c p WBoth ++ [new])) as G by (apply GI; cbn in I; intuition).
    apply (rearranged_In _ _ _ RE), as_in_In in G. apply negb_false_iff, existsb_exists. exists (as_in tri x). split; auto. apply seg_eqb_refl. }
  assert (PF : Permutation (filter (fun x => negb (existsb (seg_eqb x) tri)) (map (as_in tri) c)) (filter (fun x => negb (existsb (seg_eqb x) tri)) (map (as_in tri) mid))).
  { rewrite (Permutation_filter' _ _ _ _ (Permutation_map _ (cp_perm _ _ _ _ _ _ _ _ C))). cbn [map filter].
    rewrite !OUT by (cbn; auto). apply Permutation_refl. }
  pose proof (cp_mid _ _ _ _ _ _ _ _ C) as FM.
  split.
  - intros NR.
    assert (MO : forall x, In x mid -> In (si x) (a :: p :: b :: r) /\ In (sj x) (a :: p :: b :: r) /\
        forall y, In y tri -> ~ (si y = si x /\ sj y = sj x) /\ ~ (si y = sj x /\ sj y = si x)).
    { intros x I. apply (Forall2_In_r _ _ _ _ _ _ FM) in I as ([u v] & Iu & Jx).
      assert (NE : ~ (u = a /\ v = b) /\ ~ (u = b /\ v = a)).
      { destruct r as [|d r]; [congruence|]. clear - ND Iu Dab.
        assert (forall x y, In (x, y) (pairs (b :: (d :: r) ++ [a])) -> (x = b -> y = d) /\ x <> a) as G.
        { intros x y I.
          assert (ND2 : NoDup (b :: (d :: r))) by (rewrite !NoDup_cons_iff in *; cbn [In] in *; intuition).
          assert (NA : ~ In a (b :: d :: r)) by (rewrite !NoDup_cons_iff in ND; cbn [In] in *; intuition).
          cbn [app] in I. cbn [pairs] in I. fold (pairs (d :: r ++ [a])) in I. destruct I as [E|I].
          - injection E as <- <-. split; [auto|]. intros E. apply NA. cbn. auto.
          - assert (In x (d :: r)) as K.
            { apply (pairs_snoc_In _ (d :: r) a x y). exact I. }
            split; [intros ->; inversion ND2; contradiction|]. intros ->. apply NA. cbn in *. tauto. }
        destruct (G u v Iu) as [G1 G2]. split; intros [-> ->]; auto. specialize (G1 eq_refl). subst.
        rewrite !NoDup_cons_iff in ND. cbn [In] in ND. tauto. }
      apply pairs_In in Iu as [Iu Iv].
      assert (KK : forall q, In q (b :: r ++ [a]) -> In q (a :: p :: b :: r) /\ q <> p).
      { intros q Iq. cbn in Iq. rewrite in_app_iff in Iq. cbn in Iq. split; [cbn; tauto|]. intros ->. intuition congruence. }
      destruct (KK u Iu) as [Ku Nu], (KK v Iv) as [Kv Nv].
      split; [destruct Jx as [[-> _]|[-> _]]; auto|]. split; [destruct Jx as [[_ ->]|[_ ->]]; auto|].
      intros y Iy. apply (rearranged_In' _ _ _ RE) in Iy as (z & Iz & Ez). apply GI in Iz.
      assert (joins (a, p) y \/ joins (p, b) y \/ joins (a, b) y) as Jy.
      { assert (forall e, joins e z -> joins e y) as TT by (intros e Je; eapply joins_turn; [|exact Je]; destruct Ez as [->| ->]; auto).
        destruct Iz as [->|[->| ->]]; [left|right; left|right; right]; apply TT; auto; [apply (cp_s _ _ _ _ _ _ _ _ C)|apply (cp_t _ _ _ _ _ _ _ _ C)]. }
      clear - Jx Jy NE Nu Nv. unfold joins in *. cbn [fst snd] in *.
      destruct Jx as [[-> ->]|[-> ->]], Jy as [[[-> ->]|[-> ->]]|[[[-> ->]|[-> ->]]|[[-> ->]|[-> ->]]]]; split; intros [E1 E2]; subst; tauto. }
    assert (ID : map (as_in tri) mid = mid).
    { rewrite <- (map_id mid) at 2. apply map_ext_in. intros x I. apply as_in_out. apply MO, I. }
    assert (KEEP : filter (fun x => negb (existsb (seg_eqb x) tri)) mid = mid).
    { apply filter_all. intros x I. apply negb_true_iff. destruct (existsb (seg_eqb x) tri) eqn:E; auto. exfalso.
      apply existsb_exists in E as (y & Iy & E). destruct (MO x I) as (K1 & K2 & K3). destruct (K3 y Iy) as [K4 _]. apply K4.
      unfold seg_eqb in E. apply andb_true_iff in E as [E E2]. apply andb_true_iff in E as [_ E1].
      assert (In (si y) (a :: p :: b :: r) /\ In (sj y) (a :: p :: b :: r)) as [Y1 Y2].
      { apply (rearranged_In' _ _ _ RE) in Iy as (z & Iz & Ez). apply GI in Iz.
        assert (In (si z) (a :: p :: b :: r) /\ In (sj z) (a :: p :: b :: r)) as Z.
        { destruct Iz as [->|[->| ->]]; [destruct (cp_s _ _ _ _ _ _ _ _ C) as [[-> ->]|[-> ->]]|destruct (cp_t _ _ _ _ _ _ _ _ C) as [[-> ->]|[-> ->]]|destruct J as [[-> ->]|[-> ->]]]; cbn; auto. }
        destruct Ez as [->| ->]; cbn [seg_reverse si sj]; tauto. }
      apply (sep_eqb _ _ _ SEP) in E1; auto. apply (sep_eqb _ _ _ SEP) in E2; auto. }
    rewrite ID, KEEP in PF. exists (as_in tri new :: mid). split.
    + unfold c'. rewrite PF. apply Permutation_sym, Permutation_cons_append.
    + destruct (corner_edges _ a p b r) as [_ ->]. constructor; auto.
  - intros ->. cbn [app pairs] in FM. inversion FM as [|e z E m JZ FM' X1 X2]; subst. inversion FM'; subst. clear FM FM'.
    destruct (point_set_spec c') as [N1 P1]. apply NoDup_Permutation; auto.
    { constructor; [cbn; intuition congruence|]. constructor; [auto|constructor]. }
    intros q. rewrite P1, in_flat_map. unfold c'. split.
    + intros (x & Ix & Iq). apply in_app_iff in Ix as [Ix|[<-|[]]].
      * apply (Permutation_in _ PF) in Ix. apply filter_In in Ix as [Ix _]. destruct Ix as [<-|[]].
        assert (joins (b, a) (as_in tri z)) as JA by (eapply joins_turn; [|exact JZ]; apply as_in_turn).
        destruct JA as [[E1 E2]|[E1 E2]]; cbn in *; rewrite E1, E2 in Iq; intuition.
      * destruct JN as [[E1 E2]|[E1 E2]]; cbn in *; rewrite E1, E2 in Iq; intuition.
    + intros Iq. exists (as_in tri new). split; [apply in_app_iff; right; cbn; auto|].
      destruct JN as [[E1 E2]|[E1 E2]]; cbn in *; rewrite E1, E2; intuition.
Qed.

(** * triangle_ok *)
Lemma existsM_false : forall X (f : X -> res bool) l, existsM f l = Ok false -> forall x, In x l -> f x = Ok false.
Proof.
  intros X f l. induction l as [|y l IH]; cbn; [tauto|]. destruct (f y) as [b|e] eqn:E; cbn; [|discriminate].
  destruct b; [discriminate|]. intros H x [->|I]; auto.
Qed.
Lemma existsM_total : forall X (f : X -> res bool) l, (forall x, In x l -> exists b, f x = Ok b) -> exists b, existsM f l = Ok b.
Proof.
  intros X f l. induction l as [|y l IH]; cbn; [eauto|]. intros H. destruct (H y (or_introl eq_refl)) as (b & ->). cbn. destruct b; [eauto|].
  apply IH. intros; apply H; auto.
Qed.
Lemma mapM_total : forall X Y (f : X -> res Y) l, (forall x, In x l -> exists b, f x = Ok b) -> exists b, mapM f l = Ok b.
Proof.
  intros X Y f l. induction l as [|y l IH]; cbn; [eauto|]. intros H. destruct (H y (or_introl eq_refl)) as (b & ->). cbn.
  destruct IH as (bs & ->); [intros; apply H; auto|]. cbn. eauto.
Qed.
Lemma mapM_false : forall X (f : X -> res bool) l bs, mapM f l = Ok bs -> existsb (fun x => x) bs = false -> forall x, In x l -> f x = Ok false.
Proof.
  intros X f l. induction l as [|y l IH]; cbn; [tauto|]. intros bs. destruct (f y) as [b|e] eqn:E; cbn; [|discriminate].
  destruct (mapM f l) as [bs'|]; cbn; [|discriminate]. intros H. injection H as <-. cbn. destruct b; [discriminate|]. intros K x [->|I]; eauto.
Qed.
Lemma combine_seq_In : forall X (l : list X) k x, In x l -> exists n, In (n, x) (combine (seq k (length l)) l).
Proof.
  intros X l. induction l as [|y l IH]; intros k x I; [destruct I|]. destruct I as [->|I]; [exists k; cbn; auto|].
  destruct (IH (S k) x I) as (n & K). exists n. cbn. auto.
Qed.
Lemma combinations2_In : forall X (P : X -> X -> Prop) l, (forall x y, In (x, y) (combinations2 l) -> P x y) -> ForallOrdPairs P l.
Proof.
  intros X P l. induction l as [|x l IH]; intros H; constructor.
  - apply Forall_forall. intros y I. apply H. cbn. apply in_app_iff. left. apply in_map; auto.
  - apply IH. intros u v I. apply H. cbn. apply in_app_iff. auto.
Qed.

Lemma triangle_ok_spec : forall inside us c (a p b : pt RA) tri,
  polygon_of us c -> separated us -> NoDup [a; p; b] -> incl [a; p; b] us -> polygon_of [a; p; b] tri ->
  triangle_area tri = Ok (Rabs (orient a p b) / 2) -> / 10^8 <= Rabs (orient a p b) ->
  (triangle_ok inside c tri = Ok true -> good_ear inside us a p b) /\
  ((forall n q x, exists bo, inside n q x = Ok bo) -> exists bo, triangle_ok inside c tri = Ok bo).
Proof.
  intros inside us c a p b tri PO SEP ND IN PT AR OR. unfold triangle_ok.
  assert (E : poly_midpoint tri = Ok (mean3 a p b)).
  { destruct (midpoint_spec tri [a; p; b] ND) as [_ H].
    - intros q. rewrite <- (polygon_ends _ _ PT), in_flat_map. split; intros (s & Is & K); exists s; cbn in *; intuition.
    - rewrite H. 2:{ intros ->. destruct PT as (l' & P & F). apply Permutation_nil in P. subst. inversion F. }
      f_equal. unfold mean3. cbn [map fold_right length]. f_equal; unfold Rdiv; cbn [INR]; f_equal; try ring; f_equal; ring. }
  rewrite E. cbn [bind]. set (m := mean3 a p b).
  destruct (point_set_spec tri) as [_ PT1]. destruct (point_set_spec c) as [_ PC1].
  split.
  - destruct (inside 0%nat c m) as [bo|] eqn:E1; cbn [bind]; [|discriminate]. destruct bo; cbn [negb]; [|discriminate].
    set (others := filter _ _). destruct (mapM _ _) as [ins|] eqn:E2; cbn [bind]; [|discriminate].
    destruct (existsb (fun x => x) ins) eqn:E3; [discriminate|].
    destruct (existsM _ _) as [i|] eqn:E4; cbn [bind]; [|discriminate]. destruct i; [discriminate|]. intros _.
    split; auto. exists c, tri. split; auto. split; auto. split; auto. split.
    + intros q Iq Nq. assert (In q others) as I.
      { unfold others. apply filter_In. split; [apply PC1, (polygon_ends us c PO); auto|]. apply negb_true_iff.
        destruct (existsb (pt_eqb q) (point_set tri)) eqn:Ex; auto. exfalso. apply Nq. apply existsb_exists in Ex as (x & Ix & Ex).
        apply PT1, (polygon_ends _ _ PT) in Ix. apply (sep_eqb us) in Ex; auto. subst. auto. }
      destruct (combine_seq_In _ others 0%nat q I) as (n & K). exists n. apply (mapM_false _ _ _ _ E2 E3 _ K).
    + apply combinations2_In. intros x y I. apply (existsM_false _ _ _ E4 _ I).
  - intros TOT. destruct (TOT 0%nat c m) as (bo & ->). cbn [bind]. destruct bo; cbn [negb]; [|eauto].
    set (others := filter _ _). destruct (mapM_total _ _ (fun '(n, x) => inside (S n) tri x) (combine (seq 0 (length others)) others)) as (ins & ->).
    { intros [n x] _. apply TOT. }
    cbn [bind]. destruct (existsb (fun x => x) ins); [eauto|].
    destruct (existsM_total _ (fun '(x, y) => intersection_on_segment x y) (combinations2 (c ++ tri))) as (i & ->).
    { intros [x y] _. apply ios_total. }
    cbn [bind]. destruct i; [eauto|]. rewrite AR. cbn. eauto.
Qed.

(** * One round *)
Definition lists_sets (o : ear_oracle RA) : Prop := forall k l, Permutation (eo_list o k l) l.
Definition answers (o : ear_oracle RA) : Prop := forall k n q x, exists bo, eo_inside o k n q x = Ok bo.

Lemma ear_round_spec : forall o k vs e, lists_sets o -> polygon_of vs (e_poly e) -> NoDup vs -> separated vs -> (3 <= length vs)%nat ->
  (answers o -> exists e', ear_round o k e = Ok e') /\
  (forall e', ear_round o k e = Ok e' ->
     (polygon_of vs (e_poly e') /\ e_tris e' = e_tris e) \/
     (exists a p b r tri, rotation vs (a :: p :: b :: r) /\ good_ear (eo_inside o k) vs a p b /\ e_tris e' = e_tris e ++ [tri] /\
        polygon_of [a; p; b] tri /\ triangle_area tri = Ok (Rabs (orient a p b) / 2) /\
        (r <> [] -> polygon_of (a :: b :: r) (e_poly e')) /\ (r = [] -> length (point_set (e_poly e')) = 2%nat))).
Proof.
  intros o k vs [c ix ts] LS PO ND SEP L. cbn [e_poly e_tris] in *. unfold ear_round. cbn [e_poly e_index e_tris].
  destruct (collinear_ok vs c PO ND SEP L) as (cs & EC & CO). rewrite EC. cbn [bind].
  set (sides := by_count _ _).
  assert (exists p, match nth_error sides ix with Some p => Ok p | None => get (point_set c) (eo_pick o k mod length (point_set c)) end = Ok p /\ In p vs) as (p & EP & IP).
  { destruct (nth_error sides ix) as [q|] eqn:E.
    - exists q. split; auto. apply nth_error_In in E. unfold sides, by_count in E. apply (Permutation_in _ (sort_by_perm _ _ _)) in E.
      apply (Permutation_in _ (LS _ _)) in E. apply (co_sides _ _ _ CO) in E as (_ & m & _ & [A|A]); apply cycle_edges_In in A; tauto.
    - destruct (point_set_spec c) as [_ PC]. assert (point_set c <> []) as NE.
      { destruct vs as [|v vs]; [cbn in L; lia|]. intros Z. assert (In v (point_set c)) as K by (apply PC, (polygon_ends _ _ PO); cbn; auto). rewrite Z in K. destruct K. }
      unfold get. destruct (nth_error (point_set c) (eo_pick o k mod length (point_set c))) as [q|] eqn:E2.
      + exists q. split; auto. apply nth_error_In in E2. apply (polygon_ends _ _ PO), PC. auto.
      + exfalso. apply nth_error_None in E2. pose proof (Nat.mod_upper_bound (eo_pick o k) (length (point_set c))). destruct (point_set c); [congruence|]. cbn in *. lia. }
  rewrite EP. cbn [bind].
  destruct (corner_of _ vs p IP L) as (a & b & r & R). pose proof (rotation_perm _ _ _ R) as RP.
  assert (ND' : NoDup (a :: p :: b :: r)) by (eapply Permutation_NoDup; eauto).
  assert (SEP' : separated (a :: p :: b :: r)) by (eapply separated_perm; eauto).
  destruct (polygon_corner a p b r c ND' SEP' (polygon_rotate _ _ _ R PO)) as (s & t & mid & C).
  destruct (chord_corner _ _ _ _ _ _ _ _ ND' SEP' C) as (bo & new & E1 & E2 & E3 & J & _).
  rewrite E1. cbn [bind]. destruct bo.
  { split; [eauto|]. intros e' H. injection H as <-. cbn. auto. }
  assert (NF : / 10^8 <= Rabs (orient a p b)).
  { destruct (Rlt_le_dec (Rabs (orient a p b)) (/ 10^8)) as [F|F]; auto. apply E2 in F. discriminate. }
  rewrite E3. cbn [bind].
  assert (ND3 : NoDup [a; p; b]) by (pose proof ND' as Q; rewrite !NoDup_cons_iff in Q |- *; cbn [In] in *; intuition constructor).
  assert (IN3 : incl [a; p; b] (a :: p :: b :: r)) by (intros x; cbn; tauto).
  assert (SEP3 : separated [a; p; b]) by (apply (separated_incl _ _ SEP' IN3)).
  assert (PG : polygon_of [a; p; b] (find_segment_by_point c p WBoth ++ [new])).
  { exists [s; t; new]. split.
    - destruct (cp_find _ _ _ _ _ _ _ _ C) as [-> | ->]; cbn; [apply Permutation_refl|apply perm_swap].
    - cbn [cycle_edges combine app]. apply Forall2_cons; [apply (cp_s _ _ _ _ _ _ _ _ C)|]. apply Forall2_cons; [apply (cp_t _ _ _ _ _ _ _ _ C)|].
      apply Forall2_cons; [|constructor]. destruct J as [[J1 J2]|[J1 J2]]; [right|left]; auto. }
  assert (OP : 0 < Rabs (orient a p b)) by lra.
  destruct (triangle_of a p b _ ND3 SEP3 PG OP) as (tri & ET & RE & PT & AR & PS). rewrite ET. cbn [bind].
  pose proof (polygon_rearranged vs c _ (as_in_rearranged tri c) PO) as PO'.
  assert (IN4 : incl [a; p; b] vs) by (intros x Hx; apply (Permutation_in _ (Permutation_sym RP)), IN3, Hx).
  destruct (triangle_ok_spec (eo_inside o k) vs (map (as_in tri) c) a p b tri PO' SEP ND3 IN4 PT AR NF) as [OK1 OK2].
  split.
  - intros AN. destruct OK2 as (bo & ->); [intros; apply AN|]. cbn [bind]. destruct bo; eauto.
  - intros e'. destruct (triangle_ok _ _ _) as [bo|]; cbn [bind]; [|discriminate]. destruct bo; intros H; injection H as <-; cbn [e_poly e_tris].
    + right. exists a, p, b, r, tri. destruct (cut_ear a p b r c s t mid new tri ND' SEP' C J RE) as [H1 H2].
      repeat (split; [auto|]). intros Z. rewrite (Permutation_length (H2 Z)). reflexivity.
    + left. auto.
Qed.

(** * The loop *)
Lemma ear_loop_spec : forall o, lists_sets o -> forall n k vs e, polygon_of vs (e_poly e) -> NoDup vs -> separated vs -> (3 <= length vs)%nat ->
  (answers o -> exists r, ear_loop o n k e = Ok r) /\
  (forall bo ts, ear_loop o n k e = Ok (bo, ts) ->
     exists cs vs' new, clipped (fun us a p b => exists j, good_ear (eo_inside o j) us a p b) vs cs vs' /\ ts = e_tris e ++ new /\
       Forall2 (fun '(a, p, b) t => polygon_of [a; p; b] t /\ triangle_area t = Ok (Rabs (orient a p b) / 2)) cs new /\
       (bo = true <-> length vs' = 2%nat)).
Proof.
  intros o LS n. induction n as [|n IH]; intros k vs e PO ND SEP L.
  - assert (E : ear_loop o 0 k e = Ok (false, e_tris e)).
    { cbn [ear_loop]. destruct (point_set_spec (e_poly e)) as [N1 P1].
      assert (PV : Permutation (point_set (e_poly e)) vs) by (apply NoDup_Permutation; auto; intros q; rewrite P1; apply polygon_ends; auto).
      rewrite (Permutation_length PV). destruct (Nat.ltb_spec (length vs) 3); [lia|reflexivity]. }
    rewrite E. split; [eauto|]. intros bo ts H. injection H as <- <-. exists [], vs, []. split; [constructor|].
    rewrite app_nil_r. split; auto. split; [constructor|]. split; [discriminate|lia].
  - cbn [ear_loop]. destruct (point_set_spec (e_poly e)) as [N1 P1].
    assert (PV : Permutation (point_set (e_poly e)) vs) by (apply NoDup_Permutation; auto; intros q; rewrite P1; apply polygon_ends; auto).
    rewrite (Permutation_length PV). destruct (Nat.ltb_spec (length vs) 3) as [LT|_]; [lia|].
    destruct (ear_round_spec o k vs e LS PO ND SEP L) as [T1 T2].
    assert (END : forall e', length (point_set (e_poly e')) = 2%nat -> ear_loop o n (S k) e' = Ok (true, e_tris e')).
    { intros e' H2. destruct n; cbn [ear_loop]; rewrite H2; reflexivity. }
    assert (NEXT : forall a p b r, rotation vs (a :: p :: b :: r) -> NoDup (a :: b :: r) /\ separated (a :: b :: r)).
    { intros a p b r R. pose proof (rotation_perm _ _ _ R) as RP.
      assert (ND' : NoDup (a :: p :: b :: r)) by (eapply Permutation_NoDup; eauto).
      assert (SEP' : separated (a :: p :: b :: r)) by (eapply separated_perm; eauto).
      split; [rewrite !NoDup_cons_iff in *; cbn [In] in *; intuition|]. apply (separated_incl _ _ SEP'). intros x; cbn; tauto. }
    split.
    + intros AN. destruct (T1 AN) as (e' & E). rewrite E. cbn [bind]. destruct (T2 e' E) as [[P2 _]|(a & p & b & r & tri & R & _ & _ & _ & _ & H1 & H2)].
      * apply (IH (S k) vs e'); auto.
      * destruct (NEXT _ _ _ _ R) as [ND2 SEP2]. destruct r as [|d r].
        -- rewrite END; eauto.
        -- apply (IH (S k) (a :: b :: d :: r) e'); auto; [apply H1; congruence|cbn; lia].
    + intros bo ts. destruct (ear_round o k e) as [e'|] eqn:E; cbn [bind]; [|discriminate].
      destruct (T2 e' eq_refl) as [[P2 ET]|(a & p & b & r & tri & R & GE & ET & PT & AR & H1 & H2)]; intros H.
      * rewrite <- ET. apply (IH (S k) vs e'); auto.
      * destruct (NEXT _ _ _ _ R) as [ND2 SEP2]. destruct r as [|d r].
        -- rewrite END in H by auto. injection H as <- <-. exists [(a, p, b)], [a; b], [tri]. split.
           { econstructor; eauto. constructor. }
           split; auto. split; [constructor; auto|]. split; auto.
        -- destruct (IH (S k) (a :: b :: d :: r) e') as [_ IH2]; auto; [apply H1; congruence|cbn; lia|].
           destruct (IH2 bo ts H) as (cs & vs' & new & CL & EN & F & B).
           exists ((a, p, b) :: cs), vs', (tri :: new). split; [econstructor; eauto|].
           split; [rewrite EN, ET, <- app_assoc; reflexivity|]. split; [constructor; auto|auto].
Qed.

(*@ C69_ear_clipping *)
(** C69: whatever order sets are listed in, whatever is drawn at random and whatever the inside test
    answers (as long as it answers): ear clipping of a closed cycle returns.  The triangles it reports are
    corners cut off one after the other, each an acceptable ear of the polygon of that moment.  It reports
    success exactly when two corners are left, that is, with n - 2 triangles. *)
Lemma ear_clipping_spec : forall (o : ear_oracle RA) (vs : list (pt RA)) (l : list (seg RA)),
  (forall k s, Permutation (eo_list o k s) s) ->
  polygon_of vs l -> (3 <= length vs)%nat -> NoDup vs -> separated vs ->
  ((forall k n q x, exists b, eo_inside o k n q x = Ok b) -> exists b ts, ear_clipping o l = Ok (b, ts)) /\
  (forall b ts, ear_clipping o l = Ok (b, ts) ->
    exists cs vs', clipped (fun us a p b => exists k, good_ear (eo_inside o k) us a p b) vs cs vs' /\
      Forall2 (fun '(a, p, b) t => polygon_of [a; p; b] t) cs ts /\
      (b = true <-> length vs' = 2%nat) /\ (b = true <-> (length ts + 2)%nat = length vs)).
Proof.
  intros o vs l LS PO L ND SEP. destruct (ear_loop_spec o LS 5000 0 vs (mke l 0 []) PO ND SEP L) as [H1 H2]. unfold ear_clipping. split.
  - intros AN. destruct (H1 AN) as ([b ts] & E). exists b, ts. exact E.
  - intros b ts E. destruct (H2 b ts E) as (cs & vs' & new & CL & EN & F & B). cbn in EN. subst new. exists cs, vs'. split; auto.
    pose proof (Forall2_len _ _ _ _ _ F) as LEN. destruct (clipped_shoelace _ _ _ _ CL) as [_ LE].
    split; [clear - F; induction F as [|[[a p] b'] t cs ts [F1 _] F IH]; constructor; auto|]. split; auto. rewrite B. lia.
Qed.

(** * Areas *)
Lemma convex_rotate1 : forall v r, convex_ccw (v :: r) -> convex_ccw (r ++ [v]).
Proof.
  intros v r CV i j k a b c [IJ JK] A B C.
  assert (KL : (k < length (r ++ [v]))%nat) by (apply nth_error_Some; congruence). rewrite app_length in KL. cbn in KL.
  rewrite nth_error_app1 in A, B by lia. destruct (Nat.eq_dec k (length r)) as [->|N].
  - rewrite nth_error_app2, Nat.sub_diag in C by lia. injection C as <-.
    replace (orient a b v) with (orient v a b) by (unfold orient; ring).
    apply (CV 0%nat (S i) (S j)); auto. lia.
  - rewrite nth_error_app1 in C by lia. apply (CV (S i) (S j) (S k)); auto. lia.
Qed.
Lemma convex_rotation : forall vs vs', rotation vs vs' -> convex_ccw vs -> convex_ccw vs'.
Proof.
  intros vs vs' (u & w & -> & ->). revert w. induction u as [|v u IH]; intros w H; [rewrite app_nil_r; auto|].
  cbn in H. apply convex_rotate1 in H. rewrite <- app_assoc in H. apply IH in H. rewrite <- app_assoc in H. auto.
Qed.
Lemma convex_cut : forall a p b r, convex_ccw (a :: p :: b :: r) -> convex_ccw (a :: b :: r).
Proof.
  intros a p b r CV i j k x y z [IJ JK] X Y Z.
  set (f := fun i => match i with O => O | S i => S (S i) end).
  assert (G : forall i, nth_error (a :: b :: r) i = nth_error (a :: p :: b :: r) (f i)) by (intros [|i']; reflexivity).
  rewrite G in X, Y, Z. apply (CV (f i) (f j) (f k)); auto. destruct i, j, k; cbn; lia.
Qed.
Lemma clipped_convex : forall P vs cs vs', clipped P vs cs vs' -> convex_ccw vs -> Forall (fun '(a, p, b) => 0 <= orient a p b) cs.
Proof.
  induction 1 as [vs|vs a p b r cs vs' R HP C IH]; intros CV; constructor.
  - apply (convex_rotation _ _ R) in CV. apply (CV 0%nat 1%nat 2%nat); auto.
  - apply IH, (convex_cut a p), (convex_rotation _ _ R), CV.
Qed.

(*@ C69_areas *)
(** C69: the areas of the reported triangles add up to at least the area of the polygon when ear clipping
    succeeds, and to exactly the area when the polygon is convex. *)
Lemma ear_areas : forall (o : ear_oracle RA) (vs : list (pt RA)) (l : list (seg RA)) (ts : list (list (seg RA))),
  (forall k s, Permutation (eo_list o k s) s) ->
  polygon_of vs l -> (3 <= length vs)%nat -> NoDup vs -> separated vs ->
  ear_clipping o l = Ok (true, ts) ->
  exists areas, mapM triangle_area ts = Ok areas /\
    Rabs (shoelace vs) / 2 <= fold_right Rplus 0 areas /\
    (convex_ccw vs -> fold_right Rplus 0 areas = shoelace vs / 2).
Proof.
  intros o vs l ts LS PO L ND SEP E. destruct (ear_loop_spec o LS 5000 0 vs (mke l 0 []) PO ND SEP L) as [_ H].
  destruct (H true ts E) as (cs & vs' & new & CL & EN & F & B). cbn in EN. subst new.
  pose proof (proj1 B eq_refl) as L2. destruct vs' as [|x [|y [|? ?]]]; cbn in L2; try lia.
  destruct (clipped_shoelace _ _ _ _ CL) as [SH _].
  assert (Z : shoelace [x; y] = 0) by (unfold shoelace; cbn; ring). rewrite Z, Rplus_0_r in SH.
  exists (map (fun '(a, p, b) => Rabs (orient a p b) / 2) cs). split; [|split].
  - clear - F. induction F as [|[[a p] b] t cs ts [_ F1] F IH]; [reflexivity|]. cbn [mapM map]. rewrite F1. cbn [bind]. rewrite IH. reflexivity.
  - rewrite SH. clear. induction cs as [|[[a p] b] cs IH]; cbn [map fold_right]; [rewrite Rabs_R0; lra|].
    set (y := fold_right Rplus 0 (map (fun '(a, p, b) => orient a p b) cs)) in *. pose proof (Rabs_triang (orient a p b) y). lra.
  - intros CV. rewrite SH. apply (clipped_convex _ _ _ _ CL) in CV. clear - CV.
    induction CV as [|[[a p] b] cs H1 CV IH]; cbn [map fold_right]; [lra|]. rewrite IH, Rabs_right by lra. lra.
Qed.
