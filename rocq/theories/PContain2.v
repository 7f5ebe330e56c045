(** The cycles of a group of polygons, its edge list, names, and simplify. *)
From Coq Require Import Reals ZArith Lra Lia Bool List Psatz Permutation.
From Verif Require Import Base Arith ArithR ArithF MPoint MLine MPoly MTri MGroup MContain Spec SpecInside SpecGroup SpecBase SpecContain
  PPoint PShape PMore PConvex POrder PCorner PGroup PBase PBase2.
Import ListNotations.
Local Open Scope R_scope.
#[local] Existing Instance RA.

(** * PolygonGroup.cycles *)
Lemma outlier_value : forall (h : list (seg RA)) ids, inrange h ids ->
  value h (remove_outlier_ids h ids) = remove_outlier_segments (value h ids).
Proof.
  intros h ids R. unfold remove_outlier_ids, remove_outlier_segments. fold (loose_points (value h ids)). generalize (loose_points (value h ids)). intros sp.
  revert R. induction ids as [|k ids IH]; intros R; [reflexivity|].
  assert (R' : inrange h ids) by (intros j I; apply R; right; auto).
  destruct (obj_in h k) as (s & _ & O); [apply R; left; auto|].
  rewrite value_cons, filter_app, <- IH by auto. rewrite O. cbn [filter existsb]. rewrite O. cbn [existsb]. rewrite orb_false_r.
  destruct (existsb _ (ij s)); cbn [negb app]; [reflexivity|]. rewrite value_cons, O. reflexivity.
Qed.
Lemma turned_points : forall l l' : list (seg RA), Forall2 turned l' l -> Permutation (flat_map ij l') (flat_map ij l).
Proof.
  intros l l' F. induction F as [|s t l' l T F IH]; [constructor|]. cbn [flat_map]. apply Permutation_app; auto.
  destruct T as [->| ->]; [auto|]. cbn. constructor.
Qed.
Lemma loose_perm : forall l l' : list (seg RA), Permutation (flat_map ij l') (flat_map ij l) ->
  forall y, existsb (fun q => pt_eqb q y) (loose_points l') = existsb (fun q => pt_eqb q y) (loose_points l).
Proof.
  assert (G : forall l l' : list (seg RA), Permutation (flat_map ij l') (flat_map ij l) ->
    forall y, existsb (fun q => pt_eqb q y) (loose_points l') = true -> existsb (fun q => pt_eqb q y) (loose_points l) = true).
  { intros l l' P y E. apply existsb_exists in E as (q & I & Q). apply existsb_exists. exists q. split; auto.
    assert (PA : Permutation (all_points l') (all_points l)).
    { unfold all_points. eapply perm_trans; [apply sort_by_perm|]. eapply perm_trans; [exact P|apply Permutation_sym, sort_by_perm]. }
    unfold loose_points in *. apply filter_In in I as [I L]. apply filter_In. split; [eapply Permutation_in; eauto|].
    rewrite <- (filter_perm_length _ _ _ _ PA). auto. }
  intros l l' P y. destruct (existsb _ (loose_points l')) eqn:E1, (existsb _ (loose_points l)) eqn:E2; auto.
  - apply (G l l' P) in E1. congruence.
  - apply (G l' l (Permutation_sym P)) in E2. congruence.
Qed.
Lemma existsb_ext' : forall X (f g : X -> bool) l, (forall x, f x = g x) -> existsb f l = existsb g l.
Proof. intros X f g l H. induction l; cbn; auto. rewrite H, IHl. auto. Qed.
Lemma outlier_turned : forall (h h' : list (seg RA)) ids, Forall2 turned h' h -> remove_outlier_ids h' ids = remove_outlier_ids h ids.
Proof.
  intros h h' ids T. unfold remove_outlier_ids. apply filter_ext. intros k. f_equal.
  pose proof (turned_points _ _ (value_turned _ _ ids T)) as P. pose proof (obj_turned h' h k T) as O.
  unfold obj in *. destruct (nth_error h' k) as [s|], (nth_error h k) as [t|]; [| inversion O|inversion O|reflexivity].
  inversion O as [|? ? ? ? K _]; subst. cbn [existsb]. rewrite !orb_false_r.
  assert (G : forall l, existsb (fun y => existsb (fun q => pt_eqb q y) (loose_points (value h' ids))) l = existsb (fun y => existsb (fun q => pt_eqb q y) (loose_points (value h ids))) l).
  { intros l. apply existsb_ext'. intros y. apply loose_perm. auto. }
  rewrite G. destruct K as [->| ->]; auto. cbn [ij si sj existsb]. rewrite !orb_false_r. apply orb_comm.
Qed.

(** A cycle in good order: its segments without the loose ends are one cycle. *)
Definition good_cycle (h : list (seg RA)) (parts : list (list nat)) : Prop :=
  NoDup (concat parts) /\ (forall k, In k (concat parts) -> (k < length h)%nat) /\
  exists vs, cycle_of (remove_outlier_segments (segments_at h parts)) vs.
Lemma NoDup_filter' : forall X (f : X -> bool) l, NoDup l -> NoDup (filter f l).
Proof. intros X f l N. induction N as [|x l K N IH]; cbn; [constructor|]. destruct (f x); auto. constructor; auto. intros I. apply filter_In in I as [I _]. auto. Qed.

Lemma group_cycle_ok : forall (h h' : list (seg RA)) parts, good_cycle h parts -> Forall2 turned h' h ->
  exists ids h2, group_cycle h' parts = Ok (Some ids, h2) /\ Forall2 turned h2 h' /\ Permutation ids (remove_outlier_ids h (concat parts)) /\
    iscontinuous (value h2 ids) = true /\ isclosed (value h2 ids) = Ok true.
Proof.
  intros h h' parts (ND & IR & vs & CY) T. unfold group_cycle. rewrite (outlier_turned h h') by auto.
  set (ids := remove_outlier_ids h (concat parts)).
  assert (N : NoDup ids) by (apply NoDup_filter'; auto).
  assert (R : inrange h' ids) by (intros k I; apply filter_In in I as [I _]; rewrite (Forall2_len _ _ _ _ _ T); auto).
  assert (C : cycle_of (value h' ids) vs).
  { apply (cycle_turned (value h ids)); [apply value_turned; auto|]. unfold ids. rewrite outlier_value by exact IR. exact CY. }
  destruct (horder_cycle h' ids vs N R C) as (ids' & h2 & E & P & T2 & C1 & C2 & _).
  exists ids', h2. split; [|auto].
  destruct ids as [|k ids]; [|rewrite E; reflexivity]. exfalso. destruct C as ((L & _) & _ & _ & cyc & J & P'). cbn in P'. apply Permutation_nil in P'. subst.
  destruct vs as [|v [|w vs]]; cbn in L; try lia. inversion J.
Qed.

(** Later steps leave other segments alone. *)
Lemma group_cycle_frame : forall (h : list (seg RA)) parts c h', NoDup (concat parts) -> inrange h (concat parts) -> group_cycle h parts = Ok (c, h') ->
  forall k, ~ In k (concat parts) -> nth_error h' k = nth_error h k.
Proof.
  intros h parts c h' N R E k NI. unfold group_cycle in E.
  assert (N' : NoDup (remove_outlier_ids h (concat parts))) by (apply NoDup_filter'; auto).
  assert (R' : inrange h (remove_outlier_ids h (concat parts))) by (intros j I; apply filter_In in I as [I _]; auto).
  assert (NI' : ~ In k (remove_outlier_ids h (concat parts))) by (intros I; apply filter_In in I as [I _]; auto).
  destruct (remove_outlier_ids h (concat parts)) as [|i ids] eqn:EI; [injection E as <- <-; reflexivity|].
  pose proof (horder_order h (i :: ids) N' R') as HO. destruct (horder h (i :: ids)) as [[[b ids'] h2]|]; [|discriminate]. cbn [bind] in E. injection E as <- <-.
  destruct HO as (_ & _ & F). apply F. auto.
Qed.
Lemma value_frame : forall (h h' : list (seg RA)) ids, (forall k, In k ids -> nth_error h' k = nth_error h k) -> value h' ids = value h ids.
Proof. intros h h' ids H. unfold value. induction ids as [|k ids IH]; [reflexivity|]. cbn [flat_map]. unfold obj at 1 3. rewrite H, IH by (cbn in *; auto). reflexivity. Qed.

Lemma group_cycles_ok : forall (h : list (seg RA)) cycles h', (forall k parts, In (k, parts) cycles -> good_cycle h parts) -> Forall2 turned h' h ->
  exists r h2, group_cycles h' cycles = Ok (r, h2) /\ Forall2 turned h2 h' /\
    (forall k, (forall c parts, In (c, parts) cycles -> ~ In k (concat parts)) -> nth_error h2 k = nth_error h' k) /\
    Forall2 (fun '(k, parts) '(k', c) => k' = k /\ exists ids, c = Some ids /\ Permutation ids (remove_outlier_ids h (concat parts))) cycles r /\
    forall n k parts ids, nth_error cycles n = Some (k, parts) -> nth_error r n = Some (k, Some ids) ->
      (forall m j parts', (n < m)%nat -> nth_error cycles m = Some (j, parts') -> forall x, In x (concat parts) -> ~ In x (concat parts')) ->
      iscontinuous (value h2 ids) = true /\ isclosed (value h2 ids) = Ok true.
Proof.
  intros h cycles. induction cycles as [|[k parts] cycles IH]; intros h' G T.
  - exists [], h'. split; [reflexivity|]. split; [apply turned_refl|]. split; [auto|]. split; [constructor|]. intros [|n] ? ? ? E; discriminate.
  - pose proof (G k parts (or_introl eq_refl)) as G1. destruct (group_cycle_ok h h' parts G1 T) as (ids & h1 & E & T1 & P & C1 & C2).
    destruct (IH h1) as (r & h2 & E2 & T2 & F2 & A2 & B2); [intros; eapply G; right; eauto|eapply turned2_trans; eauto|].
    exists ((k, Some ids) :: r), h2. cbn [group_cycles]. rewrite E. cbn [bind]. rewrite E2. cbn [bind].
    assert (IN : incl ids (concat parts)) by (intros x I; eapply Permutation_in in I; [|exact P]; apply filter_In in I as [I _]; auto).
    destruct G1 as (N1 & R1 & _).
    assert (R1' : inrange h' (concat parts)) by (intros x I; rewrite (Forall2_len _ _ _ _ _ T); auto).
    split; [reflexivity|]. split; [eapply turned2_trans; eauto|]. split; [|split].
    + intros x NI. rewrite F2 by (intros c p I; apply (NI c); right; auto). apply (group_cycle_frame h' parts (Some ids) h1); auto. apply (NI k). left. auto.
    + constructor; auto. eauto.
    + intros [|n] k0 parts0 ids0 EC ER DJ; cbn in EC, ER.
      * injection EC as <- <-. injection ER as <-. rewrite (value_frame h1 h2); [auto|]. intros x I. apply F2. intros c p J. destruct (In_nth_error _ _ J) as (m & Em).
        apply (DJ (S m) c p); auto. lia.
      * apply (B2 n k0 parts0 ids0 EC ER). intros m j parts' L Em. apply (DJ (S m) j parts'); auto. lia.
Qed.

(*@ C76_cycles *)
(** C76: cycles whose segments, without those with a loose end, form one cycle each.  The call returns; the
    segments of the parts are changed at most in their direction.  The polygon of every cycle is made of exactly
    these segments; it is continuous and closed if no later cycle has a segment in common with it - so the
    last one always is. *)
Lemma group_cycles_spec : forall (h : list (seg RA)) (cycles : list (nat * list (list nat))),
  (forall k parts, In (k, parts) cycles -> NoDup (concat parts) /\ (forall i, In i (concat parts) -> (i < length h)%nat) /\
     exists vs, cycle_of (remove_outlier_segments (segments_at h parts)) vs) ->
  exists r h', group_cycles h cycles = Ok (r, h') /\ Forall2 turned h' h /\ map fst r = map fst cycles /\
    forall n k parts c, nth_error cycles n = Some (k, parts) -> nth_error r n = Some (k, c) ->
      exists ids, c = Some ids /\ rearranged (value h' ids) (remove_outlier_segments (segments_at h parts)) /\
        ((forall m j parts', (n < m)%nat -> nth_error cycles m = Some (j, parts') -> forall x, In x (concat parts) -> ~ In x (concat parts')) ->
         room_of (value h' ids) (remove_outlier_segments (segments_at h parts))).
Proof.
  intros h cycles G. destruct (group_cycles_ok h cycles h G (turned_refl h)) as (r & h2 & E & T & _ & F & B).
  exists r, h2. split; auto. split; auto. split.
  - clear -F. induction F as [|[k p] [k' c] l r [-> _] F IH]; cbn; [reflexivity|]. rewrite IH. reflexivity.
  - intros n k parts c EC ER. pose proof (Forall2_nth_error _ _ _ _ _ F n _ _ EC ER) as [_ (ids & -> & P)]. exists ids. split; auto.
    assert (RE : rearranged (value h2 ids) (remove_outlier_segments (segments_at h parts))).
    { unfold segments_at. rewrite <- outlier_value by (destruct (G k parts (nth_error_In _ _ EC)) as (_ & R1 & _); exact R1). apply value_rearranged; auto. }
    split; auto. intros DJ. split; auto. apply (B n k parts ids EC ER DJ).
Qed.

(** * as_edgelist *)
Lemma sort_edges_spec : forall (A : Arith) (l : list (pt A * pt A)),
  ((forall k s t, nth_error l k = Some s -> nth_error l (S k) = Some t -> edge_eqb t s = true) -> sort_edges l = Ok l) /\
  (forall k s t, nth_error l k = Some s -> nth_error l (S k) = Some t -> edge_eqb t s = false -> sort_edges l = Err TypeError).
Proof.
  intros A l. induction l as [|x [|y l] [IH1 IH2]].
  - split; [reflexivity|]. intros [|k]; discriminate.
  - split; [reflexivity|]. intros [|k] s t _ E; cbn in E; [discriminate|destruct k; discriminate].
  - split.
    + intros H. change (sort_edges (x :: y :: l)) with (if edge_eqb y x then r' <- sort_edges (y :: l) ;; Ok (x :: r') else Err TypeError).
      rewrite (H O x y) by reflexivity. rewrite IH1; [reflexivity|]. intros k. apply (H (S k)).
    + intros k s t E1 E2 N. change (sort_edges (x :: y :: l)) with (if edge_eqb y x then r' <- sort_edges (y :: l) ;; Ok (x :: r') else Err TypeError).
      destruct (edge_eqb y x) eqn:EY; [|reflexivity]. destruct k as [|k]; [cbn in E1, E2; congruence|]. rewrite (IH2 k s t) by auto. reflexivity.
Qed.

(*@ C77_edgelist *)
(** C77 (any arithmetic): the list of the edges of a group is returned - in the order of the segments - if every
    segment has the same end points (==) as the one before; otherwise TypeError is raised. *)
Lemma edgelist_spec : forall (A : Arith) (polygons : list (list (seg A))),
  let same (s t : seg A) := pt_eqb (si t) (si s) = true /\ pt_eqb (sj t) (sj s) = true in
  ((forall k s t, nth_error (concat polygons) k = Some s -> nth_error (concat polygons) (S k) = Some t -> same s t) ->
     as_edgelist polygons = Ok (map (fun s => (si s, sj s)) (concat polygons))) /\
  (forall k s t, nth_error (concat polygons) k = Some s -> nth_error (concat polygons) (S k) = Some t -> ~ same s t ->
     as_edgelist polygons = Err TypeError).
Proof.
  intros A polygons same. unfold as_edgelist. destruct (sort_edges_spec A (map (fun s => (si s, sj s)) (concat polygons))) as [H1 H2]. split.
  - intros H. apply H1. intros k s t E1 E2. rewrite nth_error_map in E1, E2.
    destruct (nth_error (concat polygons) k) as [s'|] eqn:F1; [|discriminate]. destruct (nth_error (concat polygons) (S k)) as [t'|] eqn:F2; [|discriminate].
    injection E1 as <-. injection E2 as <-. destruct (H k s' t' F1 F2) as [K1 K2]. unfold edge_eqb. cbn [fst snd]. rewrite K1, K2. reflexivity.
  - intros k s t E1 E2 N. apply (H2 k (si s, sj s) (si t, sj t)); [rewrite nth_error_map, E1; reflexivity|rewrite nth_error_map, E2; reflexivity|].
    destruct (edge_eqb (si t, sj t) (si s, sj s)) eqn:E; [|reflexivity]. exfalso. apply N. unfold edge_eqb in E. apply andb_true_iff in E. auto.
Qed.

(*@ C77_typeerror *)
(** C77: so the edge list of a group with a continuous polygon of two or more segments - the first not shorter than
    2e-5 in both coordinates - always raises TypeError. *)
Lemma edgelist_typeerror : forall (polygons : list (list (seg RA))) s t r, In (s :: t :: r) polygons -> iscontinuous (s :: t :: r) = true ->
  2 / 10^5 <= Rabs (px (si s) - px (sj s)) \/ 2 / 10^5 <= Rabs (py (si s) - py (sj s)) ->
  as_edgelist polygons = Err TypeError.
Proof.
  intros polygons s t r I C D. apply in_split in I as (a & b & ->).
  destruct (edgelist_spec RA (a ++ (s :: t :: r) :: b)) as [_ H].
  assert (E : forall k, (k < 2)%nat -> nth_error (concat (a ++ (s :: t :: r) :: b)) (length (concat a) + k) = nth_error [s; t] k).
  { intros k L. rewrite concat_app, nth_error_app2 by lia. replace (length (concat a) + k - length (concat a))%nat with k by lia. destruct k as [|[|k]]; [reflexivity|reflexivity|lia]. }
  apply (H (length (concat a)) s t); [rewrite <- (Nat.add_0_r (length (concat a))); apply (E O); lia|rewrite <- Nat.add_1_r; apply (E 1%nat); lia|].
  intros [K1 K2]. unfold iscontinuous in C. cbn [pairs forallb] in C. apply andb_true_iff in C as [C _].
  unfold continuous in C. destruct (touch s t); [|discriminate].
  apply pt_eqb_iff in K1 as [K1 K1']. apply pt_eqb_iff in K2 as [K2 K2'].
  destruct (pt_eqb (sj s) (si t)) eqn:E1.
  - apply pt_eqb_iff in E1 as [E1 E1'].
    repeat match goal with H : Rabs ?x < _ |- _ => apply Rabs_def2 in H end. unfold Rabs in D. repeat destruct Rcase_abs; lra.
  - destruct (pt_eqb (si s) (sj t)) eqn:E2; [|discriminate]. apply pt_eqb_iff in E2 as [E2 E2'].
    repeat match goal with H : Rabs ?x < _ |- _ => apply Rabs_def2 in H end. unfold Rabs in D. repeat destruct Rcase_abs; lra.
Qed.

(** * Names *)
Lemma filter_one : forall X (f : X -> bool) l x, filter f l = [x] -> exists a b, l = a ++ x :: b /\ f x = true /\ forall y, In y (a ++ b) -> f y = false.
Proof.
  intros X f l x. induction l as [|y l IH]; cbn; [discriminate|]. destruct (f y) eqn:E.
  - intros [= -> F]. exists [], l. split; auto. split; auto. intros z I. destruct (f z) eqn:E'; auto. exfalso. assert (K : In z (filter f l)) by (apply filter_In; auto). rewrite F in K. auto.
  - intros F. destruct (IH F) as (a & b & -> & H1 & H2). exists (y :: a), b. split; auto. split; auto. intros z [<-|I]; auto.
Qed.
Lemma one_filter : forall X (f : X -> bool) l x a b, l = a ++ x :: b -> f x = true -> (forall y, In y (a ++ b) -> f y = false) -> filter f l = [x].
Proof.
  intros X f l x a b -> E N.
  assert (Z : forall l, (forall y, In y l -> f y = false) -> filter f l = []).
  { clear. induction l as [|y l IH]; intros N; [reflexivity|]. cbn. rewrite (N y) by (left; auto). apply IH. intros; apply N; right; auto. }
  rewrite filter_app. cbn. rewrite E, !Z; auto; intros y I; apply N, in_or_app; auto.
Qed.

(*@ C78_lookup *)
(** C78 (any arithmetic): looking a polygon up in a group returns a polygon of the group equal (==) to it if there is
    exactly one, and raises otherwise. *)
Lemma lookup_spec : forall (A : Arith) (polygons : list (list (seg A))) rep,
  (forall p, polygon_from_repr polygons rep = Ok p <-> exactly_one (fun x => poly_eqb x rep = true) polygons p) /\
  ((forall p, ~ exactly_one (fun x => poly_eqb x rep = true) polygons p) -> polygon_from_repr polygons rep = Err OtherException).
Proof.
  intros A polygons rep.
  assert (H : forall p, polygon_from_repr polygons rep = Ok p <-> exactly_one (fun x => poly_eqb x rep = true) polygons p).
  { intros p. unfold polygon_from_repr. split.
    - destruct (filter (fun x => poly_eqb x rep) polygons) as [|x [|? ?]] eqn:E; try discriminate. intros [= <-].
      destruct (filter_one _ _ _ _ E) as (a & b & E1 & E2 & E3). exists a, b. split; auto. split; auto. intros y I. rewrite E3 by auto. discriminate.
    - intros (a & b & E1 & E2 & E3). rewrite (one_filter _ _ _ p a b E1 E2); auto. intros y I. apply not_true_is_false. apply (E3 y I). }
  split; auto. intros N. unfold polygon_from_repr in *. destruct (filter (fun x => poly_eqb x rep) polygons) as [|x [|? ?]]; auto.
  exfalso. apply (N x), H. reflexivity.
Qed.

(*@ C78_names *)
(** C78 (any arithmetic): the names of a list of polygons: a polygon equal to exactly one in the group gives that
    one's name, a polygon equal to none or to several is left out without notice. *)
Lemma names_spec : forall (A : Arith) N (polygons : list (N * list (seg A))) v,
  exists rows, fill_vect polygons v = concat rows /\
    Forall2 (fun pl row => (exists n p, exactly_one (fun x => poly_eqb pl (snd x) = true) polygons (n, p) /\ row = [n]) \/
                           ((forall x, ~ exactly_one (fun x => poly_eqb pl (snd x) = true) polygons x) /\ row = [])) v rows.
Proof.
  intros A N polygons v. exists (map (fun pl => match filter (fun x => poly_eqb pl (snd x)) polygons with [x] => [fst x] | _ => [] end) v).
  split; [unfold fill_vect; apply flat_map_concat_map|]. induction v as [|pl v IH]; [constructor|]. cbn [map]. constructor; auto.
  assert (H : forall x, exactly_one (fun x => poly_eqb pl (snd x) = true) polygons x -> filter (fun x => poly_eqb pl (snd x)) polygons = [x]).
  { intros x (a & b & E1 & E2 & E3). apply (one_filter _ (fun x => poly_eqb pl (snd x)) _ x a b E1 E2). intros y I. apply not_true_is_false. apply (E3 y I). }
  destruct (filter (fun x => poly_eqb pl (snd x)) polygons) as [|[n p] [|? ?]] eqn:E.
  - right. split; auto. intros x K. apply H in K. discriminate.
  - left. exists n, p. split; auto. destruct (filter_one _ _ _ _ E) as (a & b & E1 & E2 & E3). exists a, b. split; auto. split; auto.
    intros y I. rewrite E3 by auto. discriminate.
  - right. split; auto. intros x K. apply H in K. discriminate.
Qed.

Lemma poly_eqb_refl_R : forall p : list (seg RA), poly_eqb p p = true.
Proof.
  intros p. unfold poly_eqb. rewrite Nat.eqb_refl. cbn [andb]. induction p as [|s p IH]; [reflexivity|]. cbn [forallb2]. rewrite IH, andb_true_r.
  unfold seg_eqb. rewrite !pt_eqb_refl. destruct (sc s); reflexivity.
Qed.

(*@ C78_own_names *)
(** C78: the names of the polygons of a group, no two of which are equal, are all their names. *)
Lemma own_names : forall N (polygons : list (N * list (seg RA))),
  (forall x y, distinct_positions polygons x y -> poly_eqb (snd x) (snd y) = false) ->
  fill_vect polygons (map snd polygons) = map fst polygons.
Proof.
  intros N polygons D.
  assert (H : forall a b, polygons = a ++ b -> fill_vect polygons (map snd b) = map fst b).
  { intros a b. revert a. induction b as [|[n p] b IH]; intros a E; [reflexivity|]. cbn [map]. unfold fill_vect. cbn [flat_map].
    change (flat_map _ (map snd b)) with (fill_vect polygons (map snd b)).
    rewrite (IH (a ++ [(n, p)])) by (rewrite E, <- app_assoc; reflexivity).
    rewrite (one_filter _ _ polygons (n, p) a b E); [reflexivity|apply poly_eqb_refl_R|].
    intros [m q] I. apply (D (n, p) (m, q)). apply in_app_or in I as [I|I]; destruct (In_nth_error _ _ I) as (k & K).
    - exists (length a), k. split; [assert (k < length a)%nat by (apply nth_error_Some; congruence); lia|]. rewrite E. split; [rewrite nth_error_app2, Nat.sub_diag by lia; reflexivity|].
      rewrite nth_error_app1; auto. apply nth_error_Some. congruence.
    - exists (length a), (length a + S k)%nat. split; [lia|]. rewrite E. split; [rewrite nth_error_app2, Nat.sub_diag by lia; reflexivity|].
      rewrite nth_error_app2 by lia. replace (length a + S k - length a)%nat with (S k) by lia. auto. }
  apply (H []). reflexivity.
Qed.

(** * simplify *)
(*@ C43_simplify *)
(** C43: simplify leaves out the segments with an end point occurring once, and exactly the internal and
    external points that were added for one of them; the indifferent points all stay.  (Points added for
    segments of the polygon; end points identical or different also for ==.) *)
Lemma simplify_spec : forall p : ipoly RA, separated (flat_map ij (ip_segs p)) ->
  (forall s, In s (ip_segs (simplify p)) <-> In s (ip_segs p) /\ forall q, In q (ij s) -> occurs_twice q (flat_map ij (ip_segs p))) /\
  ((forall x, In x (ip_int p) -> In (snd x) (ip_segs p)) ->
    forall x, In x (ip_int (simplify p)) <-> In x (ip_int p) /\ forall q, In q (ij (snd x)) -> occurs_twice q (flat_map ij (ip_segs p))) /\
  ((forall x, In x (ip_ext p) -> In (snd x) (ip_segs p)) ->
    forall x, In x (ip_ext (simplify p)) <-> In x (ip_ext p) /\ forall q, In q (ij (snd x)) -> occurs_twice q (flat_map ij (ip_segs p))) /\
  ip_ind (simplify p) = ip_ind p.
Proof.
  intros p SEP. destruct (remove_outliers_spec (ip_segs p)) as [_ RO]. specialize (RO SEP).
  assert (G : forall l : list (pt RA * seg RA), (forall x, In x l -> In (snd x) (ip_segs p)) -> forall x,
    In x (filter (fun x : pt RA * seg RA => existsb (fun s => seg_eqb s (snd x)) (remove_outlier_segments (ip_segs p))) l) <->
    In x l /\ forall q, In q (ij (snd x)) -> occurs_twice q (flat_map ij (ip_segs p))).
  { intros l K x. rewrite filter_In. split; intros [I H]; (split; [auto|]).
    - apply existsb_exists in H as (s & Is & E). apply RO in Is as [Is T]. unfold seg_eqb in E. apply andb_true_iff in E as [E E2]. apply andb_true_iff in E as [_ E1].
      apply pt_eqb_iff in E1. apply pt_eqb_iff in E2. pose proof (K x I) as Ix.
      assert (P : forall s, In s (ip_segs p) -> In (si s) (flat_map ij (ip_segs p)) /\ In (sj s) (flat_map ij (ip_segs p))).
      { intros u Iu. split; apply in_flat_map; exists u; (split; [auto|cbn; auto]). }
      destruct (P _ Is), (P _ Ix).
      assert (A1 : si s = si (snd x)) by (apply SEP; auto; lra). assert (A2 : sj s = sj (snd x)) by (apply SEP; auto; lra).
      intros q Iq. apply T. unfold ij in *. rewrite A1, A2. auto.
    - apply existsb_exists. exists (snd x). split; [apply RO; auto|]. unfold seg_eqb. rewrite !pt_eqb_refl. destruct (sc (snd x)); reflexivity. }
  unfold simplify. cbn [ip_segs ip_int ip_ind ip_ext]. split; [exact RO|]. split; [intros K; apply G; auto|]. split; [intros K; apply G; auto|reflexivity].
Qed.
