(** The degree rules of PolygonGroup.isvalid (C47). *)
From Coq Require Import Reals ZArith Lra Lia Bool List Permutation Arith Psatz.
From Verif Require Import Base Arith ArithR ArithF MPoint MLine MPoly MGroup Spec SpecGroup SpecInside PPoint PLine PMore PConvex POrder PWalk.
Import ListNotations.
#[local] Existing Instance RA.
Open Scope R_scope.

Lemma incident_find : forall (l : list (seg RA)) p, separated (p :: flat_map ij l) ->
  length (find_segment_by_point l p WBoth) = incident l p.
Proof.
  intros l p SEP. rewrite neighbour_perm_aux. unfold incident.
  f_equal. apply filter_ext_in. intros s Hs.
  assert (EQ : forall q, In q (ij s) -> pt_eqb p q = if pt_dec q p then true else false).
  { intros q Hq. destruct (pt_dec q p) as [->|N].
    - apply pt_eqb_iff. rewrite !Rminus_eq_0, Rabs_R0. lra.
    - apply not_true_iff_false. intros E. apply pt_eqb_iff in E as [H1 H2]. apply N. symmetry.
      apply SEP; [left; reflexivity | right; apply in_flat_map; eauto | |]; simpl; lra. }
  cbn. rewrite orb_false_r. rewrite !EQ by (cbn; auto).
  destruct (pt_dec (si s) p); [reflexivity|]. destruct (pt_dec (sj s) p); reflexivity.
Qed.

Lemma sep_node : forall (l : list (seg RA)) p, separated (flat_map ij l) -> In p (flat_map ij l) -> separated (p :: flat_map ij l).
Proof.
  intros l p SEP H a b Ha Hb. apply SEP; [destruct Ha as [<-|?]; auto | destruct Hb as [<-|?]; auto].
Qed.

(*@ C47_degree *)
(** C47: the number of neighbours of an end point in the adjacency list is the number of segments that
    meet there. *)
Lemma degree_spec : forall (l : list (seg RA)) (p : pt RA) (ns : list (pt RA)),
  separated (flat_map ij l) -> (forall s, In s l -> si s <> sj s) ->
  In (p, ns) (adjacency l) -> In p (flat_map ij l) /\ length ns = incident l p.
Proof.
  intros l p ns SEP NN H. unfold adjacency in H. apply in_map_iff in H as (q & E & H). injection E as -> <-.
  apply point_set_spec in H. split; [exact H|].
  rewrite (proj2 (neighbour_spec l p (sep_node _ _ SEP H) NN)). apply incident_find, sep_node; auto.
Qed.

Lemma filter_len_perm : forall A (f : A -> bool) l l', Permutation l l' -> length (filter f l) = length (filter f l').
Proof.
  induction 1; cbn; try congruence.
  - destruct (f x); cbn; congruence.
  - destruct (f x), (f y); reflexivity.
Qed.
Lemma filter_map_comm : forall A B (g : A -> B) (f : B -> bool) l, filter f (map g l) = map g (filter (fun x => f (g x)) l).
Proof. induction l as [|x l IH]; cbn; [reflexivity|]. destruct (f (g x)); cbn; congruence. Qed.

Lemma nd_spec : forall l vs n, separated (flat_map ij l) -> (forall s, In s l -> si s <> sj s) ->
  nodes l vs -> nd l n = of_degree l vs n.
Proof.
  intros l vs n SEP NN [ND EL]. unfold nd, of_degree, adjacency. rewrite filter_map_comm, map_length.
  transitivity (length (filter (fun p => Nat.eqb (incident l p) n) (point_set l))).
  - f_equal. apply filter_ext_in. intros p H. cbn [snd]. apply point_set_spec in H.
    rewrite (proj2 (neighbour_spec l p (sep_node _ _ SEP H) NN)), incident_find by (apply sep_node; auto). reflexivity.
  - apply filter_len_perm, NoDup_Permutation; [apply point_set_spec|exact ND|].
    intros p. rewrite EL. apply point_set_spec.
Qed.

Lemma node_pos : forall l vs n, (0 <? of_degree l vs n)%nat = true <-> exists p, In p vs /\ incident l p = n.
Proof.
  intros l vs n. rewrite Nat.ltb_lt. unfold of_degree. split.
  - intros H. destruct (filter _ vs) as [|p r] eqn:E; [cbn in H; lia|].
    assert (In p (filter (fun p => Nat.eqb (incident l p) n) vs)) as I by (rewrite E; left; reflexivity).
    apply filter_In in I as [I K]. apply Nat.eqb_eq in K. eauto.
  - intros (p & I & K). assert (In p (filter (fun p => Nat.eqb (incident l p) n) vs)) as J by (apply filter_In; rewrite Nat.eqb_eq; auto).
    destruct (filter _ vs); [destruct J|cbn; lia].
Qed.

(*@ C47_degrees *)
(** C47: the degree rules hold exactly when two, three or at least ten segments meet in every point, at
    least three points have two segments and the number of points with three segments is even. *)
Lemma degrees_ok_spec : forall (l : list (seg RA)) (vs : list (pt RA)),
  separated (flat_map ij l) -> (forall s, In s l -> si s <> sj s) -> nodes l vs ->
  (degrees_ok l = true <->
   (forall p, In p vs -> incident l p = 2%nat \/ incident l p = 3%nat \/ (10 <= incident l p)%nat) /\
   (3 <= of_degree l vs 2)%nat /\ Nat.Even (of_degree l vs 3)).
Proof.
  intros l vs SEP NN NV. unfold degrees_ok.
  assert (ND : forall n, nd l n = of_degree l vs n) by (intros; apply nd_spec; auto).
  rewrite !ND.
  assert (EX : existsb (fun n => (0 <? nd l n)%nat) (seq 4 6) = true <-> exists p, In p vs /\ (4 <= incident l p < 10)%nat).
  { rewrite existsb_exists. split.
    - intros (n & Hn & K). rewrite ND in K. apply node_pos in K as (p & I & K). apply in_seq in Hn. exists p. split; [auto|lia].
    - intros (p & I & K). exists (incident l p). split; [apply in_seq; lia|]. rewrite ND. apply node_pos. eauto. }
  pose proof (node_pos l vs 0) as P0. pose proof (node_pos l vs 1) as P1.
  destruct (0 <? of_degree l vs 0)%nat.
  { split; [discriminate|]. intros [H _]. destruct (proj1 P0 eq_refl) as (p & I & K). specialize (H p I). lia. }
  destruct (0 <? of_degree l vs 1)%nat.
  { split; [discriminate|]. intros [H _]. destruct (proj1 P1 eq_refl) as (p & I & K). specialize (H p I). lia. }
  destruct (of_degree l vs 2 <? 3)%nat eqn:L2.
  { apply Nat.ltb_lt in L2. split; [discriminate|]. intros (_ & H & _). lia. }
  apply Nat.ltb_ge in L2.
  assert (PAR : (of_degree l vs 3 mod 2 =? 1)%nat = false <-> Nat.Even (of_degree l vs 3)).
  { rewrite Nat.eqb_neq. split.
    - intros H. exists (of_degree l vs 3 / 2)%nat. pose proof (Nat.div_mod_eq (of_degree l vs 3) 2).
      pose proof (Nat.mod_upper_bound (of_degree l vs 3) 2). lia.
    - intros [k ->]. rewrite Nat.mul_comm, Nat.mod_mul; lia. }
  destruct (of_degree l vs 3 mod 2 =? 1)%nat.
  { split; [discriminate|]. intros (_ & _ & H). apply PAR in H. discriminate. }
  destruct (existsb _ (seq 4 6)).
  { split; [discriminate|]. intros [H _]. destruct (proj1 EX eq_refl) as (p & I & K). specialize (H p I). lia. }
  split; [intros _|reflexivity]. split; [|split; [exact L2|apply PAR; reflexivity]].
  intros p I.
  assert (N0 : incident l p <> 0%nat) by (intros E; assert (false = true) by (apply P0; eauto); discriminate).
  assert (N1 : incident l p <> 1%nat) by (intros E; assert (false = true) by (apply P1; eauto); discriminate).
  assert (N2 : ~ (4 <= incident l p < 10)%nat) by (intros E; assert (false = true) by (apply EX; eauto); discriminate).
  lia.
Qed.

Lemma sum_incident_cons : forall (l : list (seg RA)) s vs, NoDup vs -> si s <> sj s -> In (si s) vs -> In (sj s) vs ->
  list_sum (map (incident (s :: l)) vs) = (2 + list_sum (map (incident l) vs))%nat.
Proof.
  intros l s vs ND NE.
  set (c := fun p => length (filter (fun s => if pt_dec (si s) p then true else if pt_dec (sj s) p then true else false) [s])).
  assert (INC : forall p, incident (s :: l) p = (c p + incident l p)%nat).
  { intros p. unfold incident, c. cbn [filter]. destruct (pt_dec (si s) p); [reflexivity|]. destruct (pt_dec (sj s) p); reflexivity. }
  assert (CV : forall p, c p = ((if pt_dec (si s) p then 1 else 0) + (if pt_dec (sj s) p then 1 else 0))%nat).
  { intros p. unfold c. cbn [filter]. destruct (pt_dec (si s) p); [destruct (pt_dec (sj s) p); [congruence|reflexivity]|].
    destruct (pt_dec (sj s) p); reflexivity. }
  assert (ONE : forall q ws, NoDup ws -> list_sum (map (fun p => if pt_dec q p then 1 else 0)%nat ws) = if in_dec pt_dec q ws then 1%nat else 0%nat).
  { intros q ws. induction ws as [|w ws IH]; intros D; [reflexivity|]. inversion D; subst. cbn [map list_sum fold_right]. fold (list_sum (map (fun p => if pt_dec q p then 1 else 0)%nat ws)).
    rewrite IH by auto. destruct (in_dec pt_dec q (w :: ws)) as [I|I], (in_dec pt_dec q ws) as [J|J], (pt_dec q w) as [E|E]; subst; cbn in *; try reflexivity; try tauto; exfalso; try tauto.
    destruct I; congruence || tauto. }
  intros I J.
  assert (SUM : forall ws, list_sum (map (incident (s :: l)) ws) =
    (list_sum (map (fun p => if pt_dec (si s) p then 1 else 0)%nat ws) + list_sum (map (fun p => if pt_dec (sj s) p then 1 else 0)%nat ws) + list_sum (map (incident l) ws))%nat).
  { induction ws as [|w ws IH]; [reflexivity|]. cbn [map list_sum fold_right]. unfold list_sum in IH. rewrite IH, INC, CV. lia. }
  rewrite SUM, !ONE by auto. destruct (in_dec pt_dec (si s) vs); [|tauto]. destruct (in_dec pt_dec (sj s) vs); [|tauto]. lia.
Qed.

(*@ C47_handshake *)
(** C47 (handshake lemma): the numbers of segments that meet in the points add up to twice the number of
    segments. *)
Lemma handshake : forall (l : list (seg RA)) (vs : list (pt RA)),
  (forall s, In s l -> si s <> sj s) -> nodes l vs -> list_sum (map (incident l) vs) = (2 * length l)%nat.
Proof.
  intros l vs NN [ND EL].
  assert (SUB : forall p, In p (flat_map ij l) -> In p vs) by (intros p H; apply EL, H). clear EL.
  induction l as [|s l IH].
  - clear. induction vs; cbn in *; auto.
  - rewrite sum_incident_cons.
    + rewrite IH; [cbn; lia| |]; [intros; apply NN; right; auto | intros p H; apply SUB; cbn; auto].
    + exact ND.
    + apply NN; left; reflexivity.
    + apply SUB; cbn; auto.
    + apply SUB; cbn; auto.
Qed.

(*@ C47_parity *)
(** C47: as long as fewer than ten segments meet in every point, the test for an odd number of branches
    decides nothing: the rules hold exactly when two or three segments meet everywhere and at least three
    points have two. *)
Lemma parity : forall (l : list (seg RA)) (vs : list (pt RA)),
  separated (flat_map ij l) -> (forall s, In s l -> si s <> sj s) -> nodes l vs ->
  (forall p, In p vs -> (incident l p < 10)%nat) ->
  (degrees_ok l = true <->
   (forall p, In p vs -> incident l p = 2%nat \/ incident l p = 3%nat) /\ (3 <= of_degree l vs 2)%nat).
Proof.
  intros l vs SEP NN NV LT. rewrite (degrees_ok_spec l vs SEP NN NV). split.
  - intros (H1 & H2 & _). split; [|exact H2]. intros p I. specialize (H1 p I). specialize (LT p I). lia.
  - intros [H1 H2]. split; [intros p I; specialize (H1 p I); lia|]. split; [exact H2|].
    pose proof (handshake l vs NN NV) as HS.
    assert (G : forall ws, (forall p, In p ws -> incident l p = 2%nat \/ incident l p = 3%nat) ->
      list_sum (map (incident l) ws) = (2 * length ws + of_degree l ws 3)%nat).
    { induction ws as [|w ws IH]; intros W; [reflexivity|]. cbn [map list_sum fold_right]. unfold list_sum in IH. rewrite IH by (intros; apply W; right; auto).
      unfold of_degree. cbn [filter length]. destruct (W w (or_introl eq_refl)) as [E|E]; rewrite E; cbn [Nat.eqb length]; lia. }
    rewrite (G vs H1) in HS. exists (length l - length vs)%nat. lia.
Qed.

(*@ C47_group *)
(** C47: the group is valid exactly when the degree rules hold for all segments of its polygons together
    and every polygon of the group is valid. *)
Lemma group_valid_spec : forall (polygons : list (list (seg RA))),
  group_isvalid polygons (concat polygons) = Ok true <->
  degrees_ok (concat polygons) = true /\ forall p, In p polygons -> poly_isvalid p = Ok true.
Proof.
  intros ps. unfold group_isvalid. destruct (degrees_ok (concat ps)); [|split; [discriminate|intros [H _]; discriminate]].
  generalize ps at 1 2. intros qs. clear ps. assert (T : forall P : Prop, (true = true /\ P) <-> P) by tauto. rewrite T. clear T.
  induction qs as [|q qs IH]; [split; [intros _ p []|reflexivity]|].
  cbn. destruct (poly_isvalid q) as [b|e] eqn:E; cbn.
  - destruct (mapM poly_isvalid qs) as [vs|e]; cbn in *.
    + split.
      * intros H. injection H as H. apply andb_true_iff in H as [-> H]. intros p [<-|I]; [exact E|]. apply IH; auto. congruence.
      * intros H. rewrite H in E by auto. injection E as <-. cbn.
        assert (K : Ok (forallb (fun b => b) vs) = Ok true) by (apply IH; intros; apply H; auto). exact K.
    + split; [discriminate|]. intros H. assert (K : Err e = Ok true) by (apply IH; intros; apply H; auto). discriminate.
  - split; [discriminate|]. intros H. rewrite H in E by auto. discriminate.
Qed.

Lemma cycle_snd : forall X (v : X) vs, map snd (cycle_edges (v :: vs)) = vs ++ [v].
Proof.
  intros X v vs. unfold cycle_edges.
  assert (H : forall (a b : list X), length a = length b -> map snd (combine a b) = b).
  { induction a as [|x a IH]; intros [|y b] L; simpl in *; try discriminate; auto. f_equal. apply IH. lia. }
  apply H. rewrite app_length. simpl. lia.
Qed.

Lemma cycle_edge_ne : forall X (vs : list X) e, NoDup vs -> (2 <= length vs)%nat -> In e (cycle_edges vs) -> fst e <> snd e.
Proof.
  intros X vs [a b] ND LEN He. apply In_nth_error in He as [k Hk]. apply cycle_edges_nth in Hk as [K1 K2]. simpl. intros <-.
  assert (KL : (k < length vs)%nat) by (apply nth_error_Some; congruence).
  assert (E : k = if Nat.eqb (S k) (length vs) then 0%nat else S k).
  { apply (proj1 (NoDup_nth_error vs) ND); [exact KL|congruence]. }
  destruct (Nat.eqb_spec (S k) (length vs)); lia.
Qed.

Lemma incident_cycle : forall (vs : list (pt RA)) (l : list (seg RA)) p,
  NoDup vs -> (2 <= length vs)%nat -> Forall2 joins (cycle_edges vs) l -> In p vs -> incident l p = 2%nat.
Proof.
  intros vs l p ND LEN F I.
  assert (NE := fun e => cycle_edge_ne _ vs e ND LEN).
  assert (C : forall es m, Forall2 joins es m -> (forall e, In e es -> fst e <> snd e) ->
    incident m p = (count_occ pt_dec (map fst es) p + count_occ pt_dec (map snd es) p)%nat).
  { induction 1 as [|e s es m J _ IH]; intros Q; [reflexivity|].
    assert (IH' := IH (fun e' H => Q e' (or_intror H))). clear IH. specialize (Q e (or_introl eq_refl)).
    unfold incident in *. cbn [filter map count_occ]. destruct J as [[J1 J2]|[J1 J2]]; rewrite J1, J2;
    destruct (pt_dec (fst e) p), (pt_dec (snd e) p); cbn [length]; try congruence; lia. }
  rewrite (C _ _ F NE), cycle_fst. destruct vs as [|v vs]; [destruct I|]. rewrite cycle_snd.
  assert (ND2 : NoDup (vs ++ [v])) by (eapply Permutation_NoDup; [apply Permutation_cons_append|exact ND]).
  assert (I2 : In p (vs ++ [v])) by (eapply Permutation_in; [apply Permutation_cons_append|exact I]).
  rewrite !(proj1 (NoDup_count_occ' pt_dec _)); auto.
Qed.

(*@ C47_cycle *)
(** C47: the sides of every simple closed polygon line with at least three vertices satisfy the degree
    rules, in whatever order and direction they are given. *)
Lemma degrees_cycle : forall (vs : list (pt RA)) (l : list (seg RA)),
  NoDup vs -> (3 <= length vs)%nat -> separated vs -> polygon_of vs l -> degrees_ok l = true.
Proof.
  intros vs l ND LEN SEP (l' & P & F).
  assert (INC : forall p, incident l p = incident l' p) by (intros p; unfold incident; apply filter_len_perm, P).
  assert (ENDS : forall es (m : list (seg RA)), Forall2 joins es m -> forall p, In p (flat_map ij m) <-> In p (map fst es) \/ In p (map snd es)).
  { induction 1 as [|e s es m J _ IH]; intros p; [cbn; tauto|]. cbn. rewrite IH.
    destruct J as [[J1 J2]|[J1 J2]]; rewrite J1, J2; intuition. }
  assert (EL : forall p, In p vs <-> In p (flat_map ij l)).
  { intros p. transitivity (In p (flat_map ij l')).
    - rewrite (ENDS _ _ F), cycle_fst. split; [auto|]. intros [H|H]; [exact H|]. destruct vs as [|v vs]; [destruct H|].
      rewrite cycle_snd in H. apply in_app_or in H as [H|[<-|[]]]; [right; auto|left; auto].
    - rewrite !in_flat_map. split; intros (s & I & J); exists s; (split; [|exact J]).
      + apply (Permutation_in _ (Permutation_sym P)), I.
      + apply (Permutation_in _ P), I. }
  assert (NN : forall s, In s l -> si s <> sj s).
  { intros s I E. pose proof (Permutation_in _ P I) as I2.
    assert (K : exists e, In e (cycle_edges vs) /\ joins e s).
    { clear - F I2. induction F as [|e x es m J F IH]; [destruct I2|]. destruct I2 as [->|I2]; [exists e; split; [left|]; auto|].
      destruct (IH I2) as (e' & A & B). exists e'. split; [right|]; auto. }
    destruct K as (e & He & J). apply (cycle_edge_ne _ vs e ND); [lia|exact He|].
    destruct J as [[J1 J2]|[J1 J2]]; congruence. }
  assert (NV : nodes l vs) by (split; auto).
  assert (D2 : forall p, In p vs -> incident l p = 2%nat) by (intros p I; rewrite INC; apply (incident_cycle vs); auto; lia).
  apply (parity l vs).
  - intros p q Hp Hq. apply SEP; apply EL; auto.
  - exact NN.
  - exact NV.
  - intros p I. rewrite D2 by auto. lia.
  - split; [intros p I; left; auto|]. unfold of_degree.
    assert (FA : filter (fun p => Nat.eqb (incident l p) 2) vs = vs).
    { apply filter_all. intros p I. rewrite D2 by auto. reflexivity. }
    rewrite FA. exact LEN.
Qed.

(*@ C47_many_refuted *)
(** C47, finding (binary64): a group with a point where ten segments meet is valid, although at most
    three are allowed and four to nine are rejected. *)
Lemma hub_valid : forall L : Libm,
  let s a b c d := [LineSegment (Point_new (nofZ a) (nofZ b)) (Point_new (nofZ c) (nofZ d))] : list (seg (FA L)) in
  let hub := Point_new (nofZ 0%Z) (nofZ 0%Z) : pt (FA L) in
  let spokes := map (fun '(x, y) => s 0%Z 0%Z x y) [(4,0);(4,2);(4,4);(2,4);(0,4);(-4,4);(-4,0);(-4,-4);(0,-4);(4,-4)]%Z in
  let rim := [s 4 0 4 2; s 4 2 4 4; s 4 4 2 4; s 2 4 0 4; s 0 4 (-4) 4; s (-4) 4 (-4) 2; s (-4) 2 (-4) 0; s (-4) 0 (-4) (-2);
    s (-4) (-2) (-4) (-4); s (-4) (-4) (-2) (-4); s (-2) (-4) 0 (-4); s 0 (-4) 4 (-4); s 4 (-4) 4 0]%Z in
  let g := spokes ++ rim in
  group_isvalid g (concat g) = Ok true /\ length (neighbour (concat g) hub) = 10%nat.
Proof.
  intros L s hub spokes rim g. split.
  - assert (H : match group_isvalid g (concat g) with Ok b => b | Err _ => false end = true) by (vm_compute; reflexivity).
    destruct (group_isvalid g (concat g)) as [[|]|]; try discriminate. reflexivity.
  - apply Nat.eqb_eq. vm_compute. reflexivity.
Qed.

(*@ex C47_example *)
(** C47: the hypotheses hold for a concrete triangle with partly reversed edges. *)
Example cycle_example : let vs := [@mkpt RA 3 1; @mkpt RA 9 2; @mkpt RA 4 7]%R in
  let l := [LineSegment (@mkpt RA 3 1) (@mkpt RA 9 2); LineSegment (@mkpt RA 4 7) (@mkpt RA 9 2); LineSegment (@mkpt RA 4 7) (@mkpt RA 3 1)]%R in
  NoDup vs /\ (3 <= length vs)%nat /\ separated vs /\ polygon_of vs l /\ degrees_ok l = true.
Proof.
  intros vs l. destruct order_example as (H1 & H2 & H3 & H4 & _). fold vs l in H1, H2, H3, H4.
  assert (P : polygon_of vs l) by (exists l; split; [reflexivity|exact H4]).
  split; [exact H2|]. split; [lia|]. split; [exact H3|]. split; [exact P|]. apply (degrees_cycle vs); auto.
Qed.
