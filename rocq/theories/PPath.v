(** PolygonLine.disjunct and segments_from_pointset. *)
From Coq Require Import Reals ZArith Lra Lia Bool List Psatz Permutation.
From Verif Require Import Base Arith ArithR ArithF MPoint MLine MPoly MTri Spec SpecInside SpecTri
  PPoint PLine PCommon POrder PMore PInside PCorner PCollinear PEar PEar2 PArea PRel PExamples.
Import ListNotations.
Local Open Scope R_scope.
#[local] Existing Instance RA.

(** * Polygons *)
Lemma combinations2_sub : forall X (l : list X) x y, In (x, y) (combinations2 l) -> exists l1 l2 l3, l = l1 ++ x :: l2 ++ y :: l3.
Proof.
  intros X l. induction l as [|z l IH]; intros x y I; [destruct I|]. cbn in I. apply in_app_iff in I as [I|I].
  - apply in_map_iff in I as (w & E & I). injection E as <- <-. apply in_split in I as (l2 & l3 & ->). exists [], l2, l3. reflexivity.
  - destruct (IH x y I) as (l1 & l2 & l3 & ->). exists (z :: l1), l2, l3. reflexivity.
Qed.
(*@ C72_polygons *)
(** C72 (every arithmetic): two polygons are reported disjunct exactly when no two of their triangles (all
    triangles of both polygons in one list) were reported to overlap or have equal corner lists. *)
Lemma poly_disjunct_spec : forall (A : Arith) (inside : nat -> nat -> list (seg A) -> pt A -> res bool) (ts : list (list (seg A))),
  (poly_disjunct inside ts = Ok true ->
     ForallOrdPairs (fun x y => congruent x y = false /\ exists k, MTri.overlap (inside k) x y = Ok false) ts) /\
  (poly_disjunct inside ts = Ok false ->
     exists l1 x l2 y l3 k o, ts = l1 ++ x :: l2 ++ y :: l3 /\ MTri.overlap (inside k) x y = Ok o /\ (o = true \/ congruent x y = true)).
Proof.
  intros A inside ts. unfold poly_disjunct. destruct (existsM _ _) as [b|] eqn:E; cbn [bind]; [|split; discriminate]. split; intros H; injection H as H.
  - apply negb_true_iff in H. subst. apply combinations2_In. intros x y I. destruct (combine_seq_In _ (combinations2 ts) 0%nat _ I) as (k & K).
    apply (existsM_false _ _ _ E) in K. cbn in K. destruct (MTri.overlap (inside k) x y) as [o|] eqn:EO; cbn in K; [|discriminate].
    injection K as K. apply orb_false_iff in K as [-> ->]. split; auto. exists k. auto.
  - apply negb_false_iff in H. subst. apply existsM_true in E as ([k [x y]] & I & K). apply in_combine_r in I. apply combinations2_sub in I as (l1 & l2 & l3 & ->).
    destruct (MTri.overlap (inside k) x y) as [o|] eqn:EO; cbn in K; [|discriminate]. injection K as K. exists l1, x, l2, y, l3, k, o. split; auto. split; auto.
    apply orb_prop in K. auto.
Qed.

(** * segments_from_pointset *)
Lemma dist_pt : forall p q : pt RA, dist p q = pt_distance p q.
Proof. intros. rewrite pt_distance_R. unfold dist. f_equal. ring. Qed.
Lemma pairs_cons : forall X (x y : X) l, pairs (x :: y :: l) = (x, y) :: pairs (y :: l).
Proof. reflexivity. Qed.
Lemma path_norm : forall ps : list (pt RA), nsum (map norm (map (fun '(a, b) => LineSegment a b) (pairs ps))) = path_length ps.
Proof.
  intros ps. rewrite nsum_R. induction ps as [|p [|q r] IH]; [reflexivity|reflexivity|].
  rewrite pairs_cons. cbn [map fold_right]. rewrite IH. rewrite norm_dist. cbn [si sj LineSegment path_length]. rewrite dist_pt. reflexivity.
Qed.
Lemma sort_nil : forall X (lt : X -> X -> bool) l, sort_by lt l = [] -> l = [].
Proof. intros X lt l H. apply Permutation_nil. rewrite <- H. apply sort_by_perm. Qed.
Lemma dist_head : forall (p : pt RA) l h t, sort_by (fun x y => (pt_distance x p <? pt_distance y p)%num) l = h :: t ->
  In h l /\ forall x, In x l -> dist h p <= dist x p.
Proof.
  intros p l h t E. split.
  - apply (Permutation_in _ (sort_by_perm _ (fun x y => (pt_distance x p <? pt_distance y p)%num) l)). rewrite E. cbn. auto.
  - intros x I. assert (K : (pt_distance x p <? pt_distance h p)%num = false).
    { refine (sort_by_head _ (fun x y => (pt_distance x p <? pt_distance y p)%num) _ _ l h t E x I).
      - intros a b c. ra. rewrite !Rltb_true. intros. destruct (Rlt_dec (pt_distance a p) (pt_distance b p)); [left|right]; lra.
      - intros a b. ra. rewrite Rltb_true, Rltb_false. lra. }
    revert K. ra. rewrite Rltb_false, !dist_pt. auto.
Qed.

(** What holds of the points chosen so far. *)
Record chosen (points : list (pt RA)) (p : pt RA) (ps : list (pt RA)) : Prop := {
  ch_head : nth_error ps 0 = Some p;
  ch_incl : incl ps points;
  ch_apart : ForallOrdPairs (fun x y => pt_eqb y x = false) ps;
  ch_sorted : forall i j a b, (i <= j)%nat -> nth_error ps i = Some a -> nth_error ps j = Some b -> dist a p <= dist b p;
  ch_rest : forall x y, In x points -> existsb (pt_eqb x) ps = false -> In y ps -> dist y p <= dist x p }.

Lemma apart_app : forall (ps : list (pt RA)) q, ForallOrdPairs (fun x y => pt_eqb y x = false) ps -> existsb (pt_eqb q) ps = false ->
  ForallOrdPairs (fun x y => pt_eqb y x = false) (ps ++ [q]).
Proof.
  intros ps q F. induction F as [|x l F1 F IH]; intros E; cbn; [repeat constructor|]. cbn in E. apply orb_false_iff in E as [E1 E2].
  constructor; auto. apply Forall_app. auto.
Qed.
Lemma apart_NoDup : forall ps : list (pt RA), ForallOrdPairs (fun x y => pt_eqb y x = false) ps -> NoDup ps.
Proof.
  intros ps F. induction F as [|x l F1 F IH]; constructor; auto. intros I. rewrite Forall_forall in F1. specialize (F1 x I). rewrite pt_eqb_refl in F1. discriminate.
Qed.
Lemma reorder_spec : forall points p n ps, chosen points p ps ->
  (forall ps', reorder points p ps n = Ok ps' -> chosen points p ps' /\ length ps' = (length ps + n)%nat) /\
  (forall e, reorder points p ps n = Err e -> e = IndexError /\ exists ps', chosen points p ps' /\ (length ps' < length ps + n)%nat /\ forall x, In x points -> existsb (pt_eqb x) ps' = true).
Proof.
  intros points p n. induction n as [|n IH]; intros ps C.
  - cbn. split; [intros ps' H; injection H as <-; split; auto; lia|discriminate].
  - cbn [reorder]. set (rest := filter _ _).
    assert (RI : forall x, In x rest <-> In x points /\ existsb (pt_eqb x) ps = false).
    { intros x. unfold rest. rewrite filter_In, negb_true_iff. tauto. }
    destruct (sort_by _ rest) as [|q t] eqn:E; cbn [get nth_error bind].
    + split; [discriminate|]. intros e H. injection H as <-. split; auto. exists ps. split; auto. split; [lia|].
      apply sort_nil in E. intros x I. destruct (existsb (pt_eqb x) ps) eqn:EX; auto. assert (In x rest) as K by (apply RI; auto). rewrite E in K. destruct K.
    + apply dist_head in E as [Iq Mq]. apply RI in Iq as [Iq Nq]. destruct C as [C1 C2 C3 C4 C5].
      assert (C' : chosen points p (ps ++ [q])).
      { split.
        - destruct ps; [discriminate|]. exact C1.
        - intros x I. apply in_app_iff in I as [I|[<-|[]]]; auto.
        - apply apart_app; auto.
        - intros i j a b IJ A B. destruct (lt_dec j (length ps)) as [L|L].
          + rewrite nth_error_app1 in A, B by lia. apply (C4 i j); auto.
          + assert (j = length ps) as -> by (assert (j < length (ps ++ [q]))%nat as K by (apply nth_error_Some; congruence); rewrite app_length in K; cbn in K; lia).
            rewrite nth_error_app2, Nat.sub_diag in B by lia. injection B as <-. destruct (lt_dec i (length ps)) as [L'|L'].
            * rewrite nth_error_app1 in A by lia. apply nth_error_In in A. apply C5; auto.
            * assert (i = length ps) as -> by lia. rewrite nth_error_app2, Nat.sub_diag in A by lia. injection A as <-. lra.
        - intros x y I EX J. rewrite existsb_app in EX. apply orb_false_iff in EX as [EX _]. apply in_app_iff in J as [J|[<-|[]]]; auto. apply Mq, RI; auto. }
      destruct (IH _ C') as [H1 H2]. rewrite app_length in *. cbn [length] in *. split.
      * intros ps' H. destruct (H1 ps' H). split; auto. lia.
      * intros e H. destruct (H2 e H) as (-> & ps' & ? & ? & ?). split; auto. exists ps'. split; auto. split; auto. lia.
Qed.
Lemma chosen_start : forall points p, In p points -> chosen points p [p].
Proof.
  intros points p I. assert (Z : dist p p = 0) by (rewrite dist_pt; apply pt_distance_zero; auto).
  split; auto.
  - intros x [<-|[]]; auto.
  - repeat constructor.
  - intros [|i] [|j] a b IJ A B; cbn in A, B; try (destruct i; discriminate); try (destruct j; discriminate); try lia. injection A as <-. injection B as <-. lra.
  - intros x y _ _ [<-|[]]. rewrite Z, dist_pt. apply pt_distance_nonneg.
Qed.

(*@ C73_path *)
(** C73: for distinct points (also for the tolerant ==), if the paths are shorter than 1e11, segments_from_pointset returns a path through all
    of them, in the order of the distance from its first point; no such path from another first point
    is shorter.  [starts] is the set of the points in any order. *)
Lemma path_spec : forall starts points : list (pt RA), Permutation starts points -> points <> [] -> NoDup points -> separated points ->
  (forall ps, Permutation ps points -> path_length ps < 10^11) ->
  exists p ps, segments_from_pointset starts points = Ok (map (fun '(a, b) => LineSegment a b) (pairs ps)) /\
    In p points /\ by_distance points p ps /\
    forall p', In p' points -> exists ps', by_distance points p' ps' /\ path_length ps <= path_length ps'.
Proof.
  intros starts points P NE ND SEP BND. unfold segments_from_pointset.
  assert (RO : forall p, In p points -> exists ps, reorder points p [p] (length points - 1) = Ok ps /\ by_distance points p ps).
  { intros p I. destruct (reorder_spec points p (length points - 1) [p] (chosen_start _ _ I)) as [H1 H2].
    assert (LP : (0 < length points)%nat) by (destruct points; [contradiction|cbn; lia]).
    destruct (reorder points p [p] (length points - 1)) as [ps|e] eqn:E.
    - exists ps. split; auto. destruct (H1 ps eq_refl) as [[C1 C2 C3 C4 C5] L]. split; [|split; auto].
      apply NoDup_Permutation_bis; auto; [apply apart_NoDup; auto|cbn in L; lia].
    - exfalso. destruct (H2 e eq_refl) as (_ & ps' & [C1 C2 C3 C4 C5] & L & A). cbn in L.
      assert (incl points ps') as IN.
      { intros x Ix. apply A in Ix as E2. apply existsb_exists in E2 as (y & Iy & E2). apply (sep_eqb points) in E2; auto. subst. auto. }
      apply NoDup_incl_length in IN; auto. lia. }
  match goal with |- context [foldM ?f starts ?i] => set (F := f); set (init := i) end.
  (* invariant over the starts done *)
  assert (INV : forall rest st, incl rest points ->
    exists st', foldM F rest st = Ok st' /\
     (st' = st \/ exists p ps, In p points /\ by_distance points p ps /\ st' = (path_length ps, Some (map (fun '(a, b) => LineSegment a b) (pairs ps)))) /\
     fst st' <= fst st /\ (forall p, In p rest -> exists ps, by_distance points p ps /\ fst st' <= path_length ps)).
  { induction rest as [|p rest IH]; intros st IN.
    - exists st. split; [reflexivity|]. split; [auto|]. split; [lra|intros p []].
    - destruct (RO p (IN p (or_introl eq_refl))) as (ps & E & BD). cbn [foldM]. unfold F at 1. rewrite E. cbn [bind]. rewrite path_norm. ra.
      destruct (Rltb (path_length ps) (fst st)) eqn:LT.
      + apply Rltb_true in LT. destruct (IH (path_length ps, Some (map (fun '(a, b) => LineSegment a b) (pairs ps)))) as (st' & E' & R & LE & A); [intros x Hx; apply IN; cbn; auto|].
        exists st'. split; auto. split; [|split].
        * right. destruct R as [->|R]; auto. exists p, ps. split; auto. apply IN; cbn; auto.
        * cbn [fst] in LE. lra.
        * intros q [<-|I]; auto. exists ps. auto.
      + apply Rltb_false in LT. destruct (IH st) as (st' & E' & R & LE & A); [intros x Hx; apply IN; cbn; auto|].
        exists st'. split; auto. split; auto. split; auto. intros q [<-|I]; auto. exists ps. split; auto. lra. }
  destruct (INV starts init) as (st' & E & R & LE & A); [intros x I; apply (Permutation_in _ P); auto|].
  rewrite E. cbn [bind].
  destruct R as [->|(p & ps & I & BD & ->)].
  - exfalso. destruct points as [|p0 points]; [contradiction|]. destruct (A p0) as (ps & [BD _] & K); [apply (Permutation_in _ (Permutation_sym P)); cbn; auto|].
    apply BND in BD. unfold init in K. cbn [fst] in K. revert K. ra. intros K. lra.
  - exists p, ps. cbn [snd]. split; auto. split; auto. split; auto. intros p' I'. destruct (A p') as (ps' & B' & K); [apply (Permutation_in _ (Permutation_sym P)); auto|].
    exists ps'. split; auto.
Qed.

(*@ C73_duplicates *)
(** C73: two points that are == make the call raise IndexError. *)
Lemma path_duplicates : forall starts points : list (pt RA), incl starts points -> starts <> [] ->
  (exists l1 p l2 q l3, points = l1 ++ p :: l2 ++ q :: l3 /\ pt_eqb p q = true) ->
  segments_from_pointset starts points = Err IndexError.
Proof.
  intros starts points IN NE (l1 & p & l2 & q & l3 & EP & EQ). unfold segments_from_pointset. destruct starts as [|s starts]; [contradiction|].
  cbn [foldM]. assert (Is : In s points) by (apply IN; cbn; auto).
  destruct (reorder_spec points s (length points - 1) [s] (chosen_start _ _ Is)) as [H1 H2].
  destruct (reorder points s [s] (length points - 1)) as [ps|e]; [|destruct (H2 e eq_refl) as [-> _]; reflexivity].
  exfalso. destruct (H1 ps eq_refl) as [[C1 C2 C3 C4 C5] L]. pose proof (apart_NoDup _ C3) as ND.
  assert (LP : (0 < length points)%nat) by (rewrite EP, app_length; cbn; lia). cbn in L.
  assert (NDP : NoDup points) by (refine (NoDup_incl_NoDup ND _ C2); lia).
  assert (PM : Permutation ps points) by (apply NoDup_Permutation_bis; auto; lia).
  assert (p <> q) as NPQ.
  { intros ->. rewrite EP in NDP. apply NoDup_remove_2 in NDP. apply NDP. apply in_app_iff. right. apply in_app_iff. cbn. auto. }
  assert (Ip : In p ps) by (apply (Permutation_in _ (Permutation_sym PM)); rewrite EP; apply in_app_iff; cbn; auto).
  assert (Iq : In q ps) by (apply (Permutation_in _ (Permutation_sym PM)); rewrite EP; apply in_app_iff; right; cbn; right; apply in_app_iff; cbn; auto).
  clear - C3 Ip Iq EQ NPQ. induction C3 as [|x l F1 F IH]; [destruct Ip|]. rewrite Forall_forall in F1.
  destruct Ip as [->|Ip]; destruct Iq as [->|Iq]; auto.
  - specialize (F1 q Iq). rewrite pt_eqb_sym in F1. congruence.
  - specialize (F1 p Ip). congruence.
Qed.
(*@ C73_empty *)
(** C73 (every arithmetic): without points the call raises NameError. *)
Lemma path_empty : forall A : Arith, segments_from_pointset (A := A) [] [] = Err NameError.
Proof. reflexivity. Qed.

(*@ C73_not_shortest_refuted *)
(** C73 (finding), binary64: the path returned is not the shortest, contrary to the docstring. *)
Lemma path_not_shortest : forall L : Libm, exists (segs : list (seg (FA L))) (ps : list (pt (FA L))),
  let points := zpts (FA L) [(3, 4); (4, 2); (0, 4); (0, 0); (3, 0)]%Z in
  segments_from_pointset points points = Ok segs /\ Permutation ps points /\
  nltb (nsum (map norm (map (fun '(a, b) => LineSegment a b) (pairs ps)))) (nsum (map norm segs)) = true.
Proof.
  intros L. set (points := zpts (FA L) [(3, 4); (4, 2); (0, 4); (0, 0); (3, 0)]%Z). set (ps := zpts (FA L) [(0, 4); (3, 4); (4, 2); (3, 0); (0, 0)]%Z).
  assert (H : match segments_from_pointset points points with
              | Ok segs => nltb (nsum (map norm (map (fun '(a, b) => LineSegment a b) (pairs ps)))) (nsum (map norm segs)) | Err _ => false end = true) by (vm_compute; reflexivity).
  destruct (segments_from_pointset points points) as [segs|] eqn:E; [|discriminate]. exists segs, ps. split; [exact E|]. split; [|exact H].
  unfold ps, points, zpts. apply Permutation_map. 
  apply (Permutation_trans (l' := [(3, 4); (0, 4); (4, 2); (3, 0); (0, 0)]%Z)); [apply perm_swap|]. apply perm_skip.
  apply (Permutation_trans (l' := [(4, 2); (0, 4); (3, 0); (0, 0)]%Z)); [apply perm_swap|]. apply perm_skip, perm_skip. apply perm_swap.
Qed.

(*@ex C73_example *)
Example path_example : let points := [PExamples.zp 0 0; PExamples.zp 4 0; PExamples.zp 4 3] in
  points <> [] /\ NoDup points /\ separated points /\ (forall ps, Permutation ps points -> path_length ps < 10^11).
Proof.
  intros points. split; [discriminate|]. split; [|split].
  - unfold points. repeat constructor; cbn; intros H; decompose [or] H; try contradiction; eapply PExamples.zp_neq; try eassumption; reflexivity.
  - apply (PExamples.zp_sep [(0, 0); (4, 0); (4, 3)]%Z).
  - intros ps P. assert (B : forall p q, In p points -> In q points -> dist p q <= 7).
    { intros p q I J. unfold dist. apply Rle_trans with (sqrt (7 * 7)); [|rewrite sqrt_square; lra]. apply sqrt_le_1_alt.
      cbn in I, J. decompose [or] I; decompose [or] J; subst; try contradiction; unfold PExamples.zp; cbn [px py]; lra. }
    pose proof (Permutation_length P) as LP. destruct ps as [|a [|b [|c [|? ?]]]]; try discriminate LP. cbn [path_length].
    assert (IN : forall x, In x [a; b; c] -> In x points) by (intros; eapply Permutation_in; eauto).
    pose proof (B a b (IN a ltac:(cbn; auto)) (IN b ltac:(cbn; auto))). pose proof (B b c (IN b ltac:(cbn; auto)) (IN c ltac:(cbn; auto))). lra.
Qed.
