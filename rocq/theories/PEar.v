(** collinear_points and ear clipping. *)
From Coq Require Import Reals ZArith Lra Lia Bool List Psatz Permutation.
From Verif Require Import Base Arith ArithR ArithF MPoint MLine MPoly MTri Spec SpecInside SpecGroup SpecTri
  PPoint PLine PShape PPoly PCommon PConvex POrder PMore PInside PTri PSplit PCorner PCollinear.
Import ListNotations.
Local Open Scope R_scope.
#[local] Existing Instance RA.

(** * collinear_points *)
Lemma memb_pt : forall (p : pt RA) l, memb pt_sameb p l = true <-> In p l.
Proof. intros. apply memb_In, pt_sameb_iff. Qed.
Lemma pset_add_In : forall (s : list (pt RA)) p q, In q (pset_add s p) <-> In q s \/ q = p.
Proof.
  intros s p q. unfold pset_add. destruct (memb pt_sameb p s) eqn:E.
  - apply memb_pt in E. split; auto. intros [?| ->]; auto.
  - rewrite in_app_iff. cbn. intuition.
Qed.
Lemma count_up_keys : forall (d : list (pt RA * nat)) p,
  (forall q, In q (map fst (count_up d p)) <-> In q (map fst d) \/ q = p) /\ (NoDup (map fst d) -> NoDup (map fst (count_up d p))).
Proof.
  intros d p. induction d as [|[x n] d [IH1 IH2]]; cbn [count_up map fst].
  - split; [cbn; intuition|]. intros _. repeat constructor. intros [].
  - destruct (pt_sameb x p) eqn:E.
    + apply pt_sameb_iff in E. subst x. cbn [map fst In]. split; auto. intuition.
    + cbn [map fst In]. split.
      * intros q. rewrite IH1. intuition.
      * intros ND. inversion ND as [|? ? N1 N2]; subst. constructor; auto. rewrite IH1. intros [K|K]; [auto|].
        subst. assert (pt_sameb p p = true) by (apply pt_sameb_iff; auto). congruence.
Qed.
Lemma counts_keys : forall l (d : list (pt RA * nat)),
  (forall q, In q (map fst (fold_left count_up l d)) <-> In q (map fst d) \/ In q l) /\ (NoDup (map fst d) -> NoDup (map fst (fold_left count_up l d))).
Proof.
  intros l. induction l as [|p l IH]; intros d; cbn [fold_left].
  - cbn. intuition.
  - destruct (IH (count_up d p)) as [H1 H2], (count_up_keys d p) as [K1 K2]. split; auto.
    intros q. rewrite H1, K1. cbn. intuition.
Qed.
Lemma map_filter_fst : forall X Y (f : X -> bool) (d : list (X * Y)), map fst (filter (fun e => f (fst e)) d) = filter f (map fst d).
Proof. intros. induction d as [|[x y] d IH]; auto. cbn. destruct (f x); cbn; rewrite IH; auto. Qed.

(** What the collinear corners, the points at their ends and the counted points are. *)
Definition straight_at (vs : list (pt RA)) (p : pt RA) : Prop := exists a b, consecutive vs a p b /\ flat a p b.
Record corners_ok (vs done : list (pt RA)) (c : corners RA) : Prop := {
  co_mids : forall p, In p (c_mids c) <-> In p done /\ straight_at vs p;
  co_sides : forall q, In q (c_sides c) <-> ~ In q (c_mids c) /\ exists m, In m (c_mids c) /\ adjacent vs m q;
  co_keys : forall q, In q (map fst (c_count c)) <-> In q (c_sides c);
  co_nodup : NoDup (map fst (c_count c)) }.

Lemma corner_step_spec : forall vs l done c p, polygon_of vs l -> NoDup vs -> separated vs -> (3 <= length vs)%nat -> In p vs ->
  corners_ok vs done c -> exists c', corner_step l c p = Ok c' /\ corners_ok vs (done ++ [p]) c'.
Proof.
  intros vs l done c p PO ND SEP L I [M S' K KN].
  destruct (corner_of _ vs p I L) as (a & b & r & R).
  pose proof (rotation_perm _ _ _ R) as RP.
  assert (ND' : NoDup (a :: p :: b :: r)) by (eapply Permutation_NoDup; eauto).
  assert (SEP' : separated (a :: p :: b :: r)) by (eapply separated_perm; eauto).
  destruct (polygon_corner a p b r l ND' SEP' (polygon_rotate _ _ _ R PO)) as (s & t & mid & C).
  destruct (chord_corner _ _ _ _ _ _ _ _ ND' SEP' C) as (bo & new & E1 & E2 & _).
  pose proof (consecutive_rotation _ _ _ _ _ _ (rotation_sym _ _ _ R) (consecutive_head _ a p b r)) as CH.
  assert (ST : straight_at vs p <-> flat a p b).
  { split; [|intros F; exists a, b; auto]. intros (a' & b' & [C1 C2] & F). destruct CH as [C3 C4].
    rewrite (edges_inj _ _ _ _ _ ND C3 C1), (edges_fun _ _ _ _ _ ND C4 C2). auto. }
  assert (AD : forall q, adjacent vs p q <-> q = a \/ q = b).
  { intros q. destruct CH as [C3 C4]. split.
    - intros [H|H]; [right; apply (edges_fun _ vs p); auto|left; apply (edges_inj _ vs _ _ p); auto].
    - intros [-> | ->]; [right|left]; auto. }
  unfold corner_step. rewrite E1. cbn [bind]. destruct bo.
  - assert (F : flat a p b) by (apply E2; auto).
    assert (exists x y, get (neighbour l p) 0 = Ok x /\ get (neighbour l p) 1 = Ok y /\ forall q, adjacent vs p q <-> q = x \/ q = y) as (x & y & G1 & G2 & AD').
    { destruct (cp_nb _ _ _ _ _ _ _ _ C) as [-> | ->]; [exists a, b|exists b, a]; (split; [reflexivity|]); (split; [reflexivity|]); intros q; rewrite AD; tauto. }
    rewrite G1, G2. cbn [bind]. eexists. split; [reflexivity|].
    set (mids := pset_add (c_mids c) p).
    assert (MI : forall q, In q mids <-> In q (c_mids c) \/ q = p) by (intros; apply pset_add_In).
    set (sides := filter _ _).
    assert (SI : forall q, In q sides <-> (In q (c_sides c) \/ q = x \/ q = y) /\ ~ In q mids).
    { intros q. unfold sides. rewrite filter_In, !pset_add_In, negb_true_iff, <- not_true_iff_false, memb_pt. tauto. }
    constructor; cbn [c_mids c_sides c_count].
    + intros q. rewrite MI, M, in_app_iff. cbn. split.
      * intros [[H1 H2]| ->]; [auto|]. split; auto. apply ST; auto.
      * intros [[H|[<-|[]]] H2]; auto.
    + intros q. rewrite SI. split.
      * intros [[H|H] N]; (split; [auto|]).
        -- apply S' in H as (_ & m & H1 & H2). exists m. split; auto. apply MI. auto.
        -- exists p. split; [apply MI; auto|]. apply AD'; auto.
      * intros (N & m & H1 & H2). split; auto. apply MI in H1 as [H1| ->].
        -- left. apply S'. split; [|eauto]. intros H. apply N, MI. auto.
        -- right. apply AD'; auto.
    + intros q. rewrite (map_filter_fst _ _ (fun x => negb (memb pt_sameb x mids))), filter_In, negb_true_iff, <- not_true_iff_false, memb_pt.
      destruct (counts_keys sides (c_count c)) as [-> _]. rewrite K, SI. tauto.
    + rewrite (map_filter_fst _ _ (fun x => negb (memb pt_sameb x mids))). apply NoDup_filter. apply counts_keys. auto.
  - assert (NF : ~ flat a p b) by (intros F; apply E2 in F; discriminate).
    exists c. split; auto. constructor; auto. intros q. rewrite M, in_app_iff. cbn. split; [tauto|].
    intros [[H|[<-|[]]] H2]; auto. exfalso. apply NF, ST, H2.
Qed.
Lemma corners_loop : forall vs l, polygon_of vs l -> NoDup vs -> separated vs -> (3 <= length vs)%nat ->
  forall ps done c, incl ps vs -> corners_ok vs done c -> exists c', foldM (corner_step l) ps c = Ok c' /\ corners_ok vs (done ++ ps) c'.
Proof.
  intros vs l PO ND SEP L ps. induction ps as [|p ps IH]; intros done c IN OKc; cbn [foldM].
  - exists c. rewrite app_nil_r. auto.
  - destruct (corner_step_spec vs l done c p PO ND SEP L (IN p (or_introl eq_refl)) OKc) as (c1 & -> & OK1). cbn [bind].
    destruct (IH (done ++ [p]) c1) as (c2 & E & OK2); auto; [intros x Hx; apply IN; cbn; auto|].
    exists c2. rewrite <- app_assoc in OK2. auto.
Qed.
Lemma polygon_starts : forall vs (l : list (seg RA)), polygon_of vs l -> incl (map si l) vs.
Proof. intros vs l PO x I. apply (polygon_ends vs l PO), in_flat_map. apply in_map_iff in I as (s & <- & I). exists s. cbn. auto. Qed.

Lemma collinear_ok : forall vs l, polygon_of vs l -> NoDup vs -> separated vs -> (3 <= length vs)%nat ->
  exists c, collinear_points l = Ok c /\ corners_ok vs (map si l) c.
Proof.
  intros vs l PO ND SEP L. destruct (corners_loop vs l PO ND SEP L (map si l) [] (mkc [] [] [])) as (c & E & H).
  - apply polygon_starts; auto.
  - constructor; cbn [c_mids c_sides c_count In map]; [tauto| |tauto|constructor]. intros q. split; [tauto|]. intros (_ & m & [] & _).
  - exists c. auto.
Qed.

(*@ C67_collinear_points *)
(** C67: of a closed cycle, collinear_points reports as midpoints the flat corners where a segment starts
    (all flat corners if the segments run one way round), as sides the neighbours of midpoints that are
    not midpoints themselves, and it counts exactly the sides. *)
Lemma collinear_spec : forall (vs : list (pt RA)) (l : list (seg RA)),
  polygon_of vs l -> (3 <= length vs)%nat -> NoDup vs -> separated vs ->
  exists c, collinear_points l = Ok c /\
    (forall p, In p (c_mids c) <-> In p (map si l) /\ exists a b, consecutive vs a p b /\ flat a p b) /\
    (directed_cycle vs l -> forall p, In p (c_mids c) <-> exists a b, consecutive vs a p b /\ flat a p b) /\
    (forall q, In q (c_sides c) <-> ~ In q (c_mids c) /\ exists m, In m (c_mids c) /\ adjacent vs m q) /\
    NoDup (map fst (c_count c)) /\ (forall q, In q (map fst (c_count c)) <-> In q (c_sides c)).
Proof.
  intros vs l PO L ND SEP. destruct (collinear_ok vs l PO ND SEP L) as (c & E & [M S' K KN]).
  exists c. split; auto. split; auto. split; auto. intros D p. rewrite M. split; [tauto|]. intros H. split; auto.
  destruct (directed_starts _ _ D) as [P _]. apply (Permutation_in _ (Permutation_sym P)).
  destruct H as (a & b & [C1 _] & _). apply cycle_edges_In in C1. tauto.
Qed.
