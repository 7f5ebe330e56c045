(** Concrete cases for contained cycles, the cycles of a group, its edge list and names. *)
From Coq Require Import Reals ZArith Lra Lia Bool List Psatz Permutation.
From Verif Require Import Base Arith ArithR ArithF MPoint MLine MPoly MTri MGroup MContain Spec SpecInside SpecGroup SpecBase SpecContain
  PPoint PShape PExamples PMore PConvex POrder PCorner PGroup PBase PBase2 PExBase PContain PContain2.
Import ListNotations.
Local Open Scope R_scope.
#[local] Existing Instance RA.

(** ** A triangle in a square *)
Definition x_inside (_ _ _ : nat) (l : list (seg RA)) (p : pt RA) : res bool :=
  Ok (forallb (fun s => if Rlt_dec 0 (orient (si s) (sj s) p) then true else false) l).
Lemma x_right : right_for_convex x_inside.
Proof.
  intros e z n vs p _. exists (forallb (fun s => if Rlt_dec 0 (orient (si s) (sj s) p) then true else false) (cycle_poly vs)). split; [reflexivity|].
  rewrite forallb_forall. split.
  - intros H a b I. specialize (H (LineSegment a b)). unfold cycle_poly in H. rewrite in_map_iff in H.
    assert (K := H (ex_intro _ (a, b) (conj eq_refl I))). cbn [si sj LineSegment] in K. destruct (Rlt_dec 0 (orient a b p)); [auto|discriminate].
  - intros H s I. unfold cycle_poly in I. apply in_map_iff in I as ([a b] & <- & I). cbn [si sj LineSegment fst snd].
    destruct (Rlt_dec 0 (orient a b p)); [reflexivity|exfalso; eauto].
Qed.
Definition x_square := cycle_poly [zp 0 0; zp 8 0; zp 8 8; zp 0 8].
Definition x_tri := cycle_poly [zp 1 1; zp 3 1; zp 1 3].
Lemma x_sq_point : forall p, point_of [x_square] p <-> In p [zp 0 0; zp 8 0; zp 8 8; zp 0 8].
Proof.
  intros p. split.
  - intros (l & s & [<-|[]] & I & J). cbn in I. decompose [or] I; subst; cbn in J; decompose [or] J; subst; cbn; tauto.
  - intros I. exists x_square. cbn in I. decompose [or] I; subst; try contradiction.
    + eexists. split; [left; auto|]. split; [left; reflexivity|left; reflexivity].
    + eexists. split; [left; auto|]. split; [left; reflexivity|right; left; reflexivity].
    + eexists. split; [left; auto|]. split; [right; left; reflexivity|right; left; reflexivity].
    + eexists. split; [left; auto|]. split; [right; right; left; reflexivity|right; left; reflexivity].
Qed.
Lemma x_tri_point : forall p, point_of [x_tri] p <-> In p [zp 1 1; zp 3 1; zp 1 3].
Proof.
  intros p. split.
  - intros (l & s & [<-|[]] & I & J). cbn in I. decompose [or] I; subst; cbn in J; decompose [or] J; subst; cbn; tauto.
  - intros I. exists x_tri. cbn in I. decompose [or] I; subst; try contradiction.
    + eexists. split; [left; auto|]. split; [left; reflexivity|left; reflexivity].
    + eexists. split; [left; auto|]. split; [left; reflexivity|right; left; reflexivity].
    + eexists. split; [left; auto|]. split; [right; left; reflexivity|right; left; reflexivity].
Qed.

(*@ex C75_example *)
(** A triangle (cycle 1) in a square (cycle 0), with a test that is right for convex polygons: the hypotheses
    hold, and only the triangle is contained. *)
Example contained_example : let cycles := [(0, [x_square]); (1, [x_tri])]%nat in
  NoDup (map fst cycles) /\ right_for_convex x_inside /\
  (forall e pe, In (e, pe) cycles -> (forall p, point_of pe p -> stored p) /\ (exists p q, point_of pe p /\ point_of pe q /\ p <> q) /\
     forall p q, point_of pe p -> point_of pe q -> Rabs (px p - px q) < 1 / 10^5 -> Rabs (py p - py q) < 1 / 10^5 -> p = q) /\
  exists row, contained_cycles x_inside cycles = Ok [(0, row); (1, [])]%nat /\ In 1%nat row.
Proof.
  intros cycles. assert (ND : NoDup (map fst cycles)) by (repeat constructor; cbn; lia).
  assert (HY : forall e pe, In (e, pe) cycles -> (forall p, point_of pe p -> stored p) /\ (exists p q, point_of pe p /\ point_of pe q /\ p <> q) /\
     forall p q, point_of pe p -> point_of pe q -> Rabs (px p - px q) < 1 / 10^5 -> Rabs (py p - py q) < 1 / 10^5 -> p = q).
  { intros e pe [[= <- <-]|[[= <- <-]|[]]].
    - split; [|split].
      + intros p I. apply x_sq_point in I. cbn in I. decompose [or] I; subst; try contradiction; apply zp_stored.
      + exists (zp 0 0), (zp 8 0). rewrite !x_sq_point. split; [cbn; tauto|]. split; [cbn; tauto|apply zp_neq; reflexivity].
      + intros p q I J. apply x_sq_point in I. apply x_sq_point in J. apply (zp_sep [(0, 0); (8, 0); (8, 8); (0, 8)]%Z); auto.
    - split; [|split].
      + intros p I. apply x_tri_point in I. cbn in I. decompose [or] I; subst; try contradiction; apply zp_stored.
      + exists (zp 1 1), (zp 3 1). rewrite !x_tri_point. split; [cbn; tauto|]. split; [cbn; tauto|apply zp_neq; reflexivity].
      + intros p q I J. apply x_tri_point in I. apply x_tri_point in J. apply (zp_sep [(1, 1); (3, 1); (1, 3)]%Z); auto. }
  split; auto. split; [apply x_right|]. split; auto.
  destruct (contained_interior x_inside cycles ND x_right HY) as (r & E & M & H).
  destruct r as [|[e0 r0] [|[e1 r1] [|? ?]]]; try discriminate M. injection M as -> ->. exists r0.
  assert (R0 : In 1%nat r0).
  { apply (proj2 (H 0%nat [x_square] r0 (or_introl eq_refl) (or_introl eq_refl)) 1%nat [x_tri]); [cbn; auto|]. split; [discriminate|].
    intros p I. apply x_tri_point in I. intros dx dy D.
    assert (G : exists q, In q [zp 0 0; zp 8 0; zp 8 8; zp 0 8] /\ ((0 < px q - px p /\ 0 <= dx) \/ (px q - px p < 0 /\ dx < 0)) /\ ((0 < py q - py p /\ 0 <= dy) \/ (py q - py p < 0 /\ dy < 0))).
    { assert (B : 0 < px p < 8 /\ 0 < py p < 8) by (cbn in I; decompose [or] I; subst; try contradiction; cbn; lra).
      destruct (Rlt_le_dec dx 0), (Rlt_le_dec dy 0).
      - exists (zp 0 0). cbn. split; [tauto|lra].
      - exists (zp 0 8). cbn. split; [tauto|lra].
      - exists (zp 8 0). cbn. split; [tauto|lra].
      - exists (zp 8 8). cbn. split; [tauto|lra]. }
    destruct G as (q & Iq & GX & GY). exists q. split; [apply x_sq_point; auto|].
    assert (X : 0 <= dx * (px q - px p) /\ (dx <> 0 -> 0 < dx * (px q - px p))) by (destruct GX as [[? ?]|[? ?]]; split; try nra; intros; destruct (Rtotal_order dx 0) as [?|[?|?]]; try nra).
    assert (Y : 0 <= dy * (py q - py p) /\ (dy <> 0 -> 0 < dy * (py q - py p))) by (destruct GY as [[? ?]|[? ?]]; split; try nra; intros; destruct (Rtotal_order dy 0) as [?|[?|?]]; try nra).
    destruct X as [X1 X2], Y as [Y1 Y2]. destruct D as [D|D]; [specialize (X2 D)|specialize (Y2 D)]; lra. }
  split; auto. rewrite E. f_equal. f_equal.
  assert (R1 : r1 = []).
  { destruct r1 as [|z r1]; auto. exfalso.
    destruct (H 1%nat [x_tri] (z :: r1)) as [IN HZ]; [cbn; auto|cbn; auto|].
    assert (Z : z = 0%nat \/ z = 1%nat) by (specialize (IN z (or_introl eq_refl)); cbn in IN; lia).
    destruct Z as [-> | ->].
    - destruct (proj1 (HZ 0%nat [x_square] (or_introl eq_refl)) (or_introl eq_refl)) as [_ K].
      destruct (K (zp 8 0) ltac:(apply x_sq_point; cbn; auto) 1 0 ltac:(left; lra)) as (q & Iq & L). apply x_tri_point in Iq.
      cbn in Iq. decompose [or] Iq; subst; try contradiction; cbn in L; lra.
    - destruct (proj1 (HZ 1%nat [x_tri] ltac:(cbn; auto)) (or_introl eq_refl)) as [K _]. apply K. reflexivity. }
  rewrite R1. reflexivity.
Qed.

(** The numbers of the cycles found, as a check. *)
Definition rows_same (r : res (list (nat * list nat))) (m : list (nat * list nat)) : bool :=
  match r with Ok l => if list_eq_dec (fun x y : nat * list nat => ltac:(decide equality; [apply (list_eq_dec Nat.eq_dec)|apply Nat.eq_dec])) l m then true else false | _ => false end.
Lemma rows_check : forall r m, rows_same r m = true -> r = Ok m.
Proof. intros [l|] m H; [|discriminate]. unfold rows_same in H. destruct list_eq_dec; [congruence|discriminate]. Qed.
Lemma no_check : forall (r : res bool), match r with Ok b => negb b | _ => false end = true -> r = Ok false.
Proof. intros [[]|] H; try discriminate. reflexivity. Qed.

(*@ C75_notch_refuted *)
(** C75 (finding), binary64: a triangle in the notch of an L counts as contained in the L, although
    is_internal_point says that all its corners are outside of the L. *)
Lemma contained_notch : forall L,
  let el := cycle_poly (zpts (FA L) [(0, 0); (9, 0); (9, 3); (3, 3); (3, 9); (0, 9)]%Z) in
  let tri := zpts (FA L) [(4, 4); (5, 4); (4, 5)]%Z in
  contained_cycles (fun _ _ _ => decided_by (some_draws L)) [(0, [el]); (1, [cycle_poly tri])]%nat = Ok [(0, [1]); (1, [])]%nat /\
  forall p, In p tri -> decided_by (some_draws L) el p = Ok false.
Proof.
  intros L el tri. split; [apply rows_check; vm_compute; reflexivity|].
  intros p I. cbn in I. decompose [or] I; subst; try contradiction; apply no_check; vm_compute; reflexivity.
Qed.

(** ** Two rooms with a common wall *)
Definition x_heap (A : Arith) : list (seg A) :=
  let p x y := @mkpt A (nofZ x) (nofZ y) in
  [LineSegment (p 0 0) (p 2 0); LineSegment (p 2 0) (p 2 2); LineSegment (p 2 2) (p 0 2); LineSegment (p 0 2) (p 0 0);
   LineSegment (p 2 0) (p 4 0); LineSegment (p 4 0) (p 4 2); LineSegment (p 4 2) (p 2 2); LineSegment (p 0 0) (p (-3) (-3))]%Z.
Definition x_cycles : list (nat * list (list nat)) := [(0, [[0; 1]; [2; 3; 7]]); (1, [[4; 5; 6]; [1]])]%nat.

(*@ex C76_example *)
(** The hypotheses for two square rooms with a common wall, segment 1, and a dangling segment. *)
Example group_cycles_example : forall k parts, In (k, parts) x_cycles -> NoDup (concat parts) /\ (forall i, In i (concat parts) -> (i < length (x_heap RA))%nat) /\
  exists vs, cycle_of (remove_outlier_segments (segments_at (x_heap RA) parts)) vs.
Proof.
  assert (FE : forall X (f : X -> bool) a, (forall x, In x a -> f x = true) -> filter f a = a).
  { intros X f a H. induction a as [|x a IH]; [reflexivity|]. cbn. rewrite H, IH; [reflexivity|intros; apply H; right; auto|left; auto]. }
  intros k parts [[= <- <-]|[[= <- <-]|[]]]; (split; [repeat constructor; cbn; lia|]); (split; [cbn; lia|]).
  - set (t := [LineSegment (zp 0 0) (zp 2 0); LineSegment (zp 2 0) (zp 2 2); LineSegment (zp 2 2) (zp 0 2); LineSegment (zp 0 2) (zp 0 0)]).
    set (d := LineSegment (zp 0 0) (zp (-3) (-3))).
    change (segments_at (x_heap RA) [[0; 1]; [2; 3; 7]]%nat) with (t ++ [d]).
    exists [zp 0 0; zp 2 0; zp 2 2; zp 0 2].
    assert (F : Forall2 joins (cycle_edges [zp 0 0; zp 2 0; zp 2 2; zp 0 2]) t) by (repeat (apply Forall2_cons; [left; split; reflexivity|]); constructor).
    assert (SEP : separated (flat_map ij (t ++ [d]))) by apply (zp_sep [(0, 0); (2, 0); (2, 0); (2, 2); (2, 2); (0, 2); (0, 2); (0, 0); (0, 0); (-3, -3)]%Z).
    destruct (remove_outliers_spec (t ++ [d])) as [(f & E) RO]. specialize (RO SEP).
    assert (R : remove_outlier_segments (t ++ [d]) = t).
    { rewrite E, filter_app, FE.
      - cbn [filter]. destruct (f d) eqn:ED; [|apply app_nil_r]. exfalso.
        assert (I : In d (remove_outlier_segments (t ++ [d]))) by (rewrite E; apply filter_In; split; [apply in_or_app; right; left|]; auto).
        apply RO in I as [_ H]. destruct (H (zp (-3) (-3))) as (a & b & N & K1 & K2); [right; left; reflexivity|].
        assert (U : forall k, nth_error (flat_map ij (t ++ [d])) k = Some (zp (-3) (-3)) -> k = 9%nat).
        { intros m Em. do 9 (destruct m as [|m]; [exfalso; cbn [flat_map ij t d app nth_error si sj LineSegment] in Em; assert (IJ : forall u v : pt RA, Some u = Some v -> u = v) by congruence; apply IJ in Em; revert Em; apply zp_neq; reflexivity|]).
          destruct m as [|m]; [reflexivity|]. destruct m; discriminate. }
        apply N. rewrite (U a K1), (U b K2). reflexivity.
      - intros s I. pose proof (cycles_kept (t ++ [d]) t [d] _ (Permutation_refl _) F SEP s I) as K. rewrite E in K. apply filter_In in K. apply K. }
    rewrite R. split; [cbn; lia|]. split; [|split; [apply (zp_sep [(0, 0); (2, 0); (2, 2); (0, 2)]%Z)|exists t; auto]].
    repeat constructor; cbn; intros I; decompose [or] I; try contradiction; eapply zp_neq; try eassumption; reflexivity.
  - set (t := [LineSegment (zp 2 0) (zp 4 0); LineSegment (zp 4 0) (zp 4 2); LineSegment (zp 4 2) (zp 2 2); LineSegment (zp 2 0) (zp 2 2)]).
    change (segments_at (x_heap RA) [[4; 5; 6]; [1]]%nat) with t.
    exists [zp 2 0; zp 4 0; zp 4 2; zp 2 2].
    assert (F : Forall2 joins (cycle_edges [zp 2 0; zp 4 0; zp 4 2; zp 2 2]) t)
      by (do 3 (apply Forall2_cons; [left; split; reflexivity|]); apply Forall2_cons; [right; split; reflexivity|constructor]).
    assert (SEP : separated (flat_map ij t)) by apply (zp_sep [(2, 0); (4, 0); (4, 0); (4, 2); (4, 2); (2, 2); (2, 0); (2, 2)]%Z).
    destruct (remove_outliers_spec t) as [(f & E) _].
    assert (R : remove_outlier_segments t = t).
    { rewrite E. apply FE. intros s I. assert (P : Permutation t (t ++ [])) by (rewrite app_nil_r; auto).
      pose proof (cycles_kept t t [] _ P F SEP s I) as K. rewrite E in K. apply filter_In in K. apply K. }
    rewrite R. split; [cbn; lia|]. split; [|split; [apply (zp_sep [(2, 0); (4, 0); (4, 2); (2, 2)]%Z)|exists t; auto]].
    repeat constructor; cbn; intros I; decompose [or] I; try contradiction; eapply zp_neq; try eassumption; reflexivity.
Qed.

(*@ C76_shared_refuted *)
(** C76 (finding), binary64: two square rooms with a common wall.  Putting the second in order turns the
    common wall round: the first polygon is not continuous any more. *)
Lemma group_shared : forall L, exists ids1 ids2 h, group_cycles (x_heap (FA L)) x_cycles = Ok ([(0%nat, Some ids1); (1%nat, Some ids2)], h) /\
  iscontinuous (value h ids1) = false /\ iscontinuous (value h ids2) = true /\
  Permutation ids1 [0; 1; 2; 3]%nat /\ Permutation ids2 [4; 5; 6; 1]%nat.
Proof.
  intros L. assert (K : match group_cycles (x_heap (FA L)) x_cycles with
    | Ok ([(0, Some i); (1, Some j)], h) => negb (iscontinuous (value h i)) && iscontinuous (value h j) &&
        (if list_eq_dec Nat.eq_dec i [0; 1; 2; 3] then true else false) && (if list_eq_dec Nat.eq_dec j [4; 5; 6; 1] then true else false) | _ => false end%nat = true) by (vm_compute; reflexivity).
  destruct (group_cycles (x_heap (FA L)) x_cycles) as [[[|[[|?] [i|]] [|[[|[|?]] [j|]] [|? ?]]] h]|]; try discriminate.
  apply andb_true_iff in K as [K K4]. apply andb_true_iff in K as [K K3]. apply andb_true_iff in K as [K1 K2]. apply negb_true_iff in K1.
  exists i, j, h. split; [reflexivity|]. split; auto. split; auto.
  destruct list_eq_dec as [->|]; [|discriminate]. split; auto.
  destruct list_eq_dec as [->|]; [|discriminate]. auto.
Qed.

(*@ex C77_example *)
(** The hypotheses of C77 for a triangle. *)
Example edgelist_example : let s := LineSegment (zp 0 0) (zp 4 0) in let t := LineSegment (zp 4 0) (zp 4 3) in let u := LineSegment (zp 4 3) (zp 0 0) in
  iscontinuous [s; t; u] = true /\ 2 / 10^5 <= Rabs (px (si s) - px (sj s)) /\ as_edgelist [[s; t; u]] = Err TypeError /\ as_edgelist [[s]; [s]] = Ok [(si s, sj s); (si s, sj s)].
Proof.
  intros s t u.
  assert (C : iscontinuous [s; t; u] = true).
  { apply (iscontinuous_cycle [zp 0 0; zp 4 0; zp 4 3]). }
  assert (D : 2 / 10^5 <= Rabs (px (si s) - px (sj s))) by (unfold s; cbn; rewrite Rabs_left; lra).
  split; auto. split; auto. split; [apply (edgelist_typeerror _ s t [u]); auto; left; auto|].
  apply (edgelist_spec RA [[s]; [s]]). intros [|[|k]] x y E1 E2; cbn in E1, E2; try discriminate. injection E1 as <-. injection E2 as <-.
  rewrite !pt_eqb_refl. auto.
Qed.

(*@ex C78_example *)
(** Two triangles have their names; a triangle twice in the group has none. *)
Example names_example : let a := cycle_poly [zp 0 0; zp 4 0; zp 4 3] in let b := cycle_poly [zp 10 0; zp 14 0; zp 14 3] in
  (forall x y, distinct_positions [(1%nat, a); (2%nat, b)] x y -> poly_eqb (snd x) (snd y) = false) /\
  fill_vect [(1%nat, a); (2%nat, b)] [b; a] = [2; 1]%nat /\ fill_vect [(1%nat, a); (2%nat, a)] [a; b] = [] /\
  polygon_from_repr [a; b] b = Ok b /\ polygon_from_repr [a; a] a = Err OtherException.
Proof.
  intros a b.
  assert (N : forall (s t : seg RA) l m, seg_eqb s t = false -> poly_eqb (s :: l) (t :: m) = false).
  { intros s t l m E. unfold poly_eqb. cbn [forallb2]. rewrite E. apply andb_false_r. }
  assert (AB : poly_eqb a b = false) by (apply N; unfold seg_eqb; cbn [si sj LineSegment fst snd]; rewrite <- !zp_eqb; reflexivity).
  assert (BA : poly_eqb b a = false) by (apply N; unfold seg_eqb; cbn [si sj LineSegment fst snd]; rewrite <- !zp_eqb; reflexivity).
  pose proof (poly_eqb_refl_R a) as AA. pose proof (poly_eqb_refl_R b) as BB. clearbody a b. split; [|split; [|split; [|split]]].
  - intros x y ([|[|i]] & [|[|j]] & NE & E1 & E2); cbn in E1, E2; try congruence; try (destruct i; discriminate); try (destruct j; discriminate); injection E1 as <-; injection E2 as <-; auto.
  - unfold fill_vect. cbn [flat_map filter snd]. rewrite AA, BB, AB, BA. reflexivity.
  - unfold fill_vect. cbn [flat_map filter snd]. rewrite AA, BA. reflexivity.
  - unfold polygon_from_repr. cbn [filter]. rewrite AB, BB. reflexivity.
  - unfold polygon_from_repr. cbn [filter]. rewrite AA. reflexivity.
Qed.

(*@ C43_simplify_refuted *)
(** C43 (finding), binary64: an indifferent point added for a dangling segment stays when simplify removes the segment. *)
Lemma simplify_refuted : forall L, let o := LineSegment (@mkpt (FA L) (nofZ 4) (nofZ 3)) (@mkpt (FA L) (nofZ 9) (nofZ 9)) in
  let t := cycle_poly (zpts (FA L) [(0, 0); (4, 0); (4, 3)]%Z) in let q := @mkpt (FA L) (nofZ 5) (nofZ 5) in
  let p := simplify (mkip (t ++ [o]) [(q, o)] [(q, o)] [(q, o)]) in ip_segs p = t /\ ip_int p = [] /\ ip_ind p = [(q, o)] /\ ip_ext p = [].
Proof.
  intros L o t q p. split; [apply fpoly_same_eq; vm_compute; reflexivity|]. assert (E : forall X (l : list X), length l = 0%nat -> l = []) by (intros X [|? ?] H; [reflexivity|discriminate]). split; [apply E; vm_compute; reflexivity|]. split; [reflexivity|apply E; vm_compute; reflexivity].
Qed.
