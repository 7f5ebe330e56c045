(** remove_collinear_points. *)
From Coq Require Import Reals ZArith Lra Lia Bool List Psatz Permutation.
From Verif Require Import Base Arith ArithR ArithF MPoint MLine MPoly MTri Spec SpecInside SpecGroup SpecTri
  PPoint PLine PShape PPoly PCommon PConvex POrder PMore PInside PTri PSplit PCorner.
Import ListNotations.
Local Open Scope R_scope.
#[local] Existing Instance RA.

Lemma separated_incl : forall vs vs' : list (pt RA), separated vs -> incl vs' vs -> separated vs'.
Proof. intros vs vs' S I p q P Q. apply S; auto. Qed.
Lemma separated_perm : forall vs vs' : list (pt RA), Permutation vs vs' -> separated vs -> separated vs'.
Proof. intros vs vs' P S. apply (separated_incl vs); auto. intros x I. apply (Permutation_in _ (Permutation_sym P)); auto. Qed.
Lemma edges_fun : forall X (vs : list X) x y y', NoDup vs -> In (x, y) (cycle_edges vs) -> In (x, y') (cycle_edges vs) -> y = y'.
Proof.
  intros X vs x y y' ND I I'. destruct (cycle_fst_snd _ vs) as [E _]. rewrite <- E in ND. clear E.
  induction (cycle_edges vs) as [|e l IH]; [destruct I|]. cbn in ND. inversion ND as [|? ? N1 N2]; subst.
  destruct I as [->|I], I' as [E|I']; auto.
  - congruence.
  - exfalso. apply N1. apply in_map_iff. exists (x, y'). auto.
  - exfalso. subst e. apply N1. apply in_map_iff. exists (x, y). auto.
Qed.
Lemma edges_inj : forall X (vs : list X) x x' y, NoDup vs -> In (x, y) (cycle_edges vs) -> In (x', y) (cycle_edges vs) -> x = x'.
Proof.
  intros X vs x x' y ND I I'. destruct (cycle_fst_snd _ vs) as [_ E]. apply (Permutation_NoDup (Permutation_sym E)) in ND. clear E.
  induction (cycle_edges vs) as [|e l IH]; [destruct I|]. cbn in ND. inversion ND as [|? ? N1 N2]; subst.
  destruct I as [->|I], I' as [E|I']; auto.
  - congruence.
  - exfalso. apply N1. apply in_map_iff. exists (x', y). auto.
  - exfalso. subst e. apply N1. apply in_map_iff. exists (x, y). auto.
Qed.
Lemma consecutive_rotation : forall X (vs vs' : list X) a p b, rotation vs vs' -> consecutive vs a p b -> consecutive vs' a p b.
Proof. intros X vs vs' a p b R [H1 H2]. pose proof (rotation_edges _ _ _ R) as P. split; eapply Permutation_in; eauto. Qed.
Lemma consecutive_head : forall X (a p b : X) r, consecutive (a :: p :: b :: r) a p b.
Proof. intros. unfold consecutive. destruct (corner_edges _ a p b r) as [-> _]. cbn. auto. Qed.

Lemma remove_step_spec : forall vs c p, polygon_of vs c -> In p vs -> NoDup vs -> separated vs -> (3 <= length vs)%nat ->
  exists a b r, rotation vs (a :: p :: b :: r) /\
    ((~ flat a p b /\ remove_step c p = Ok c) \/
     (flat a p b /\ exists c1, polygon_of (a :: b :: r) c1 /\ remove_step c p = (' (_, c') <- order c1 ;; Ok c'))).
Proof.
  intros vs c p PO I ND SEP L. destruct (corner_of _ vs p I L) as (a & b & r & R). exists a, b, r. split; auto.
  pose proof (rotation_perm _ _ _ R) as RP.
  assert (ND' : NoDup (a :: p :: b :: r)) by (eapply Permutation_NoDup; eauto).
  assert (SEP' : separated (a :: p :: b :: r)) by (eapply separated_perm; eauto).
  destruct (polygon_corner a p b r c ND' SEP' (polygon_rotate _ _ _ R PO)) as (s & t & mid & C).
  destruct (chord_corner _ _ _ _ _ _ _ _ ND' SEP' C) as (bo & new & E1 & E2 & E3 & J & _).
  unfold remove_step. rewrite E1. cbn [bind]. destruct bo.
  - right. split; [apply E2; auto|]. rewrite E3. cbn [bind]. eexists. split; [eapply cut_corner; eauto|]. reflexivity.
  - left. split; auto. intros F. apply E2 in F. discriminate.
Qed.

Lemma remove_loop : forall ps c vs, polygon_of vs c -> (3 <= length vs < 250)%nat -> NoDup vs -> separated vs ->
  NoDup ps -> incl ps vs -> INR (length vs) / 10^8 <= Rabs (shoelace vs) ->
  exists cs vs' c', foldM remove_step ps c = Ok c' /\ clipped (fun _ => flat) vs cs vs' /\
    polygon_of vs' c' /\ (3 <= length vs')%nat.
Proof.
  intros ps. induction ps as [|p ps IH]; intros c vs PO L ND SEP NP IN SH.
  - exists [], vs, c. split; [reflexivity|]. split; [constructor|]. split; auto. lia.
  - inversion NP as [|? ? NI NP']; subst. assert (I : In p vs) by (apply IN; cbn; auto).
    assert (IN' : incl ps vs) by (intros x Hx; apply IN; cbn; auto).
    destruct (remove_step_spec vs c p PO I ND SEP ltac:(lia)) as (a & b & r & R & [[NF E]|(F & c1 & P1 & E)]); cbn [foldM]; rewrite E.
    + cbn [bind]. apply IH; auto.
    + pose proof (rotation_perm _ _ _ R) as RP. pose proof (Permutation_length RP) as RL. cbn [length] in RL.
      assert (ND' : NoDup (a :: p :: b :: r)) by (eapply Permutation_NoDup; eauto).
      assert (SEP' : separated (a :: p :: b :: r)) by (eapply separated_perm; eauto).
      assert (ND2 : NoDup (a :: b :: r)).
      { rewrite !NoDup_cons_iff in *. cbn [In] in *. intuition. }
      assert (SEP2 : separated (a :: b :: r)) by (apply (separated_incl _ _ SEP'); intros x; cbn; tauto).
      rewrite (shoelace_rotation _ _ R), (shoelace_corner a p b r), RL in SH. unfold flat in F.
      assert (SH2 : INR (length (a :: b :: r)) / 10^8 <= Rabs (shoelace (a :: b :: r))).
      { cbn [length] in *. rewrite S_INR in SH. pose proof (Rabs_triang (orient a p b) (shoelace (a :: b :: r))). lra. }
      assert (r <> []) as NR.
      { intros ->. cbn in SH2. rewrite Rabs_right in SH2; lra. }
      assert (L2 : (3 <= length (a :: b :: r) < 250)%nat) by (destruct r; [congruence|cbn in *; lia]).
      destruct P1 as (c2 & PM & F2). destruct (order_spec _ c1 c2 L2 ND2 SEP2 F2 PM) as (us & c3 & EO & RE & _).
      rewrite EO. cbn [bind]. destruct (IH c3 (a :: b :: r)) as (cs & vs' & c' & E' & CL & PO' & L'); auto.
      * apply (polygon_rearranged _ c1); auto. exists c2. auto.
      * intros x Hx. assert (In x (a :: p :: b :: r)) as K by (apply (Permutation_in _ RP); auto).
        cbn in *. destruct K as [?|[?|?]]; auto. congruence.
      * exists ((a, p, b) :: cs), vs', c'. split; auto. split; [econstructor; eauto|]. auto.
Qed.

Lemma clipped_shoelace : forall P vs cs vs', clipped P vs cs vs' ->
  shoelace vs = fold_right Rplus 0 (map (fun '(a, p, b) => orient a p b) cs) + shoelace vs' /\ length vs = (length cs + length vs')%nat.
Proof.
  induction 1 as [vs|vs a p b r cs vs' R HP C [IH1 IH2]].
  - cbn. split; [lra|lia].
  - rewrite (shoelace_rotation _ _ R), (shoelace_corner a p b r), IH1, (Permutation_length (rotation_perm _ _ _ R)). cbn [map fold_right length] in *.
    split; [lra|lia].
Qed.

Lemma clipped_all : forall (Q : pt RA -> pt RA -> pt RA -> Prop) vs cs vs', clipped (fun _ => Q) vs cs vs' -> Forall (fun '(a, p, b) => Q a p b) cs.
Proof. induction 1; constructor; auto. Qed.
Lemma directed_starts : forall vs l, directed_cycle vs l -> Permutation (map si l) vs /\ polygon_of vs l.
Proof.
  intros vs l (cyc & P & E). destruct (cycle_fst_snd _ vs) as [F _]. split.
  - rewrite (Permutation_map _ P), <- F, <- E, map_map. apply Permutation_refl.
  - exists cyc. split; auto. rewrite <- E. clear. induction cyc; cbn; constructor; auto. left. auto.
Qed.

(*@ C68_remove_collinear *)
(** C68: on a closed cycle, remove_collinear_points cuts off corners one after the other, each of them
    flat (area below half the tolerance) when it is cut; what remains is a closed cycle of at least three
    corners, and twice its area has changed by at most 1e-8 for every corner removed. *)
Lemma remove_collinear_spec : forall (vs : list (pt RA)) (l : list (seg RA)),
  directed_cycle vs l -> (3 <= length vs < 250)%nat -> NoDup vs -> separated vs ->
  INR (length vs) / 10^8 <= Rabs (shoelace vs) ->
  exists cs vs' l', remove_collinear_points l = Ok l' /\ clipped (fun _ => flat) vs cs vs' /\
    polygon_of vs' l' /\ (3 <= length vs')%nat /\
    Rabs (shoelace vs' - shoelace vs) <= INR (length vs - length vs') / 10^8.
Proof.
  intros vs l D L ND SEP SH. destruct (directed_starts _ _ D) as [P PO].
  destruct (remove_loop (map si l) l vs PO L ND SEP) as (cs & vs' & l' & E & C & PO' & L'); auto.
  - eapply Permutation_NoDup; [apply Permutation_sym|]; eauto.
  - intros x I. apply (Permutation_in _ P); auto.
  - exists cs, vs', l'. repeat (split; [assumption|]). destruct (clipped_shoelace _ _ _ _ C) as [E1 E2].
    apply clipped_all in C as F. rewrite E1. replace (length vs - length vs')%nat with (length cs) by lia. clear - F.
    set (x := shoelace vs'). induction F as [|[[a p] b] cs F1 F IH]; cbn [map fold_right].
    + replace (x - (0 + x)) with 0 by ring. rewrite Rabs_R0. cbn. lra.
    + cbn [length]. rewrite S_INR. unfold flat in F1. set (y := fold_right _ _ _) in *.
      replace (x - (orient a p b + y + x)) with ((x - (y + x)) + - orient a p b) by ring.
      pose proof (Rabs_triang (x - (y + x)) (- orient a p b)) as T. rewrite Rabs_Ropp in T. lra.
Qed.

(** * Integer corners *)
Lemma integral_orient : forall a p b, integral a -> integral p -> integral b -> exists k : Z, orient a p b = IZR k.
Proof.
  intros a p b (a1 & a2 & A1 & A2) (p1 & p2 & P1 & P2) (b1 & b2 & B1 & B2).
  exists ((p1 - a1) * (b2 - a2) - (p2 - a2) * (b1 - a1))%Z. unfold orient. rewrite A1, A2, P1, P2, B1, B2.
  rewrite minus_IZR, !mult_IZR, !minus_IZR. reflexivity.
Qed.
Lemma IZR_small : forall k : Z, Rabs (IZR k) < 1 -> k = 0%Z.
Proof. intros k H. rewrite <- abs_IZR in H. apply lt_IZR in H. lia. Qed.
Lemma integral_flat : forall a p b, integral a -> integral p -> integral b -> flat a p b <-> orient a p b = 0.
Proof.
  intros a p b A P B. destruct (integral_orient a p b A P B) as (k & E). unfold flat. rewrite E. split.
  - intros H. f_equal. apply IZR_small. lra.
  - intros ->. rewrite Rabs_R0. lra.
Qed.
Lemma integral_separated : forall vs, Forall integral vs -> separated vs.
Proof.
  intros vs F p q P Q H1 H2. rewrite Forall_forall in F. destruct (F p P) as (a & b & A1 & B1), (F q Q) as (c & d & A2 & B2).
  rewrite A1, A2, <- minus_IZR in H1. rewrite B1, B2, <- minus_IZR in H2.
  assert (a - c = 0)%Z by (apply IZR_small; lra). assert (b - d = 0)%Z by (apply IZR_small; lra).
  destruct p, q. cbn in *. subst. replace a with c by lia. replace b with d by lia. reflexivity.
Qed.
Lemma integral_shoelace : forall vs, Forall integral vs -> exists k : Z, shoelace vs = IZR k.
Proof.
  intros vs F. unfold shoelace.
  assert (forall x y, In (x, y) (cycle_edges vs) -> integral x /\ integral y) as G.
  { intros x y I. apply cycle_edges_In in I. rewrite Forall_forall in F. intuition. }
  induction (cycle_edges vs) as [|[x y] E IH]; [exists 0%Z; reflexivity|].
  destruct IH as (k & K); [intros; apply G; cbn; auto|].
  destruct (G x y (or_introl eq_refl)) as [(a & b & A1 & B1) (c & d & C1 & D1)].
  exists (a * d - c * b + k)%Z. cbn [map fold_right fst snd]. rewrite A1, B1, C1, D1, K, plus_IZR, minus_IZR, !mult_IZR. reflexivity.
Qed.

(** Replacing p by another point of the line through a, p keeps "no straight angle at a". *)
Lemma straight_swap : forall z a p b : pt RA, a <> p -> a <> b -> orient a p b = 0 -> orient z a p <> 0 -> orient z a b <> 0.
Proof.
  intros z a p b N1 N2 E H K. unfold orient in *.
  set (x1 := px p - px a) in *. set (y1 := py p - py a) in *.
  set (x2 := px b - px a) in *. set (y2 := py b - py a) in *.
  set (u := px a - px z) in *. set (v := py a - py z) in *.
  assert (H' : u * y1 - v * x1 <> 0).
  { intros Q. apply H. replace (py p - py z) with (y1 + v) by (unfold y1, v; ring). replace (px p - px z) with (x1 + u) by (unfold x1, u; ring). 
    transitivity (u * y1 - v * x1); [ring|exact Q]. }
  assert (K' : u * y2 - v * x2 = 0).
  { rewrite <- K. replace (py b - py z) with (y2 + v) by (unfold y2, v; ring). replace (px b - px z) with (x2 + u) by (unfold x2, u; ring). ring. }
  assert (x2 <> 0 \/ y2 <> 0) as [N|N].
  { destruct (Req_dec x2 0) as [X|X]; auto. destruct (Req_dec y2 0) as [Y|Y]; auto. exfalso. apply N2.
    destruct a as [ax ay], b as [bx by']. unfold x2, y2 in *. cbn in *. f_equal; lra. }
  - apply H'. apply (Rmult_eq_reg_l x2); auto. rewrite Rmult_0_r.
    replace (x2 * (u * y1 - v * x1)) with (x1 * (u * y2 - v * x2) - u * (x1 * y2 - y1 * x2)) by ring. rewrite K', E. ring.
  - apply H'. apply (Rmult_eq_reg_l y2); auto. rewrite Rmult_0_r.
    replace (y2 * (u * y1 - v * x1)) with (y1 * (u * y2 - v * x2) - v * (x1 * y2 - y1 * x2)) by ring. rewrite K', E. ring.
Qed.
Lemma orient_rot : forall a b c, orient a b c = orient b c a.
Proof. intros. unfold orient. ring. Qed.
Lemma orient_swap : forall a b c, orient a b c = - orient c b a.
Proof. intros. unfold orient. ring. Qed.

Lemma remove_loop_int : forall ps c vs, polygon_of vs c -> (3 <= length vs < 250)%nat -> NoDup vs -> Forall integral vs ->
  NoDup ps -> incl ps vs -> shoelace vs <> 0 ->
  (forall a p b, consecutive vs a p b -> ~ In p ps -> orient a p b <> 0) ->
  exists cs vs' c', foldM remove_step ps c = Ok c' /\ clipped (fun _ a p b => orient a p b = 0) vs cs vs' /\
    polygon_of vs' c' /\ (forall a p b, consecutive vs' a p b -> orient a p b <> 0).
Proof.
  intros ps. induction ps as [|p ps IH]; intros c vs PO L ND INT NP IN SH V.
  - exists [], vs, c. split; [reflexivity|]. split; [constructor|]. auto.
  - pose proof (integral_separated _ INT) as SEP. inversion NP as [|? ? NI NP']; subst. assert (I : In p vs) by (apply IN; cbn; auto).
    assert (IN' : incl ps vs) by (intros x Hx; apply IN; cbn; auto).
    destruct (remove_step_spec vs c p PO I ND SEP ltac:(lia)) as (a & b & r & R & K).
    pose proof (rotation_perm _ _ _ R) as RP. pose proof (Permutation_length RP) as RL. cbn [length] in RL.
    assert (ND' : NoDup (a :: p :: b :: r)) by (eapply Permutation_NoDup; eauto).
    assert (INT' : Forall integral (a :: p :: b :: r)).
    { rewrite Forall_forall in *. intros x Hx. apply INT, (Permutation_in _ (Permutation_sym RP)), Hx. }
    assert (FL : flat a p b <-> orient a p b = 0).
    { inversion INT' as [|? ? Q1 Q2]; subst. inversion Q2 as [|? ? Q3 Q4]; subst. inversion Q4; subst. apply integral_flat; auto. }
    pose proof (consecutive_rotation _ _ _ _ _ _ (rotation_sym _ _ _ R) (consecutive_head _ a p b r)) as CH.
    destruct K as [[NF E]|(F & c1 & P1 & E)]; cbn [foldM]; rewrite E.
    + cbn [bind]. apply IH; auto. intros x q y CO NQ. destruct CO as [CO1 CO2]. destruct (pt_dec p q) as [<-|N].
      * destruct CH as [CH1 CH2]. rewrite (edges_inj _ _ _ _ _ ND CO1 CH1), (edges_fun _ _ _ _ _ ND CO2 CH2). rewrite <- FL. auto.
      * apply V; [split; auto|]. cbn. intuition.
    + apply FL in F.
      assert (ND2 : NoDup (a :: b :: r)) by (rewrite !NoDup_cons_iff in *; cbn [In] in *; intuition).
      assert (INT2 : Forall integral (a :: b :: r)) by (inversion INT' as [|? ? Q1 Q2]; inversion Q2; auto).
      pose proof (integral_separated _ INT2) as SEP2.
      rewrite (shoelace_rotation _ _ R), (shoelace_corner a p b r), F, Rplus_0_l in SH.
      assert (r <> []) as NR by (intros ->; apply SH; cbn; lra).
      assert (L2 : (3 <= length (a :: b :: r) < 250)%nat) by (destruct r; [congruence|cbn in *; lia]).
      destruct P1 as (c2 & PM & F2). destruct (order_spec _ c1 c2 L2 ND2 SEP2 F2 PM) as (us & c3 & EO & RE & _).
      rewrite EO. cbn [bind]. destruct (IH c3 (a :: b :: r)) as (cs & vs' & c' & E' & CL & PO' & L'); auto.
      * apply (polygon_rearranged _ c1); auto. exists c2. auto.
      * intros x Hx. assert (In x (a :: p :: b :: r)) as K by (apply (Permutation_in _ RP); auto).
        cbn in *. destruct K as [?|[?|?]]; auto. congruence.
      * intros x q y CO NQ.
        assert (DI : a <> p /\ p <> b /\ a <> b /\ ~ In p (b :: r ++ [a])).
        { rewrite !NoDup_cons_iff in ND'. cbn [In] in *. rewrite in_app_iff. cbn [In]. intuition congruence. }
        destruct DI as (D1 & D2 & D3 & D4).
        assert (OLD : forall x q y, consecutive (a :: p :: b :: r) x q y -> q <> p -> ~ In q ps -> orient x q y <> 0).
        { intros x' q' y' CO' N' Q'. apply V; [apply (consecutive_rotation _ _ _ _ _ _ (rotation_sym _ _ _ R)); auto|]. cbn. intuition. }
        destruct CO as [CO1 CO2]. destruct (corner_edges _ a p b r) as [E1 E2]. rewrite E2 in CO1, CO2.
        assert (EE : forall e, In e (pairs (b :: r ++ [a])) -> In e (cycle_edges (a :: p :: b :: r))) by (intros e He; rewrite E1; right; right; auto).
        assert (C1 : In (p, b) (cycle_edges (a :: p :: b :: r))) by (rewrite E1; cbn; auto).
        assert (C2 : In (a, p) (cycle_edges (a :: p :: b :: r))) by (rewrite E1; cbn; auto).
        destruct CO1 as [CO1|CO1], CO2 as [CO2|CO2].
        -- congruence.
        -- injection CO1 as <- <-. assert (orient p b y <> 0) as Q by (apply OLD; auto; split; auto).
           assert (orient y b a <> 0) as Q2.
           { apply (straight_swap y b p a); auto; [rewrite (orient_swap b p a), F; ring|]. intros Z. apply Q. rewrite orient_swap, Z. ring. }
           intros Z. apply Q2. rewrite orient_swap, Z. ring.
        -- injection CO2 as <- <-. assert (orient x a p <> 0) as Q by (apply OLD; auto; split; auto).
           apply (straight_swap x a p b); auto.
        -- apply pairs_In in CO1 as CO3. apply OLD; [split; auto| |auto]. intros ->. tauto.
      * exists ((a, p, b) :: cs), vs', c'. split; auto. split; [econstructor; eauto|]. auto.
Qed.

(*@ C68_integer_corners *)
(** C68: with integer corners the result is exact: only corners on the line of their neighbours are cut
    off, the area is unchanged, and no three consecutive corners of what remains are on a line. *)
Lemma remove_collinear_integer : forall (vs : list (pt RA)) (l : list (seg RA)),
  directed_cycle vs l -> (3 <= length vs < 250)%nat -> NoDup vs -> Forall integral vs -> shoelace vs <> 0 ->
  exists cs vs' l', remove_collinear_points l = Ok l' /\ clipped (fun _ a p b => orient a p b = 0) vs cs vs' /\
    polygon_of vs' l' /\ shoelace vs' = shoelace vs /\
    (forall a p b, consecutive vs' a p b -> orient a p b <> 0).
Proof.
  intros vs l D L ND INT SH. destruct (directed_starts _ _ D) as [P PO].
  destruct (remove_loop_int (map si l) l vs PO L ND INT) as (cs & vs' & l' & E & C & PO' & V); auto.
  - eapply Permutation_NoDup; [apply Permutation_sym|]; eauto.
  - intros x I. apply (Permutation_in _ P); auto.
  - intros a p b [C1 _] NI. exfalso. apply NI, (Permutation_in _ (Permutation_sym P)). apply cycle_edges_In in C1. tauto.
  - exists cs, vs', l'. repeat (split; [assumption|]). split; auto. destruct (clipped_shoelace _ _ _ _ C) as [-> _].
    assert (fold_right Rplus 0 (map (fun '(a, p, b) => orient a p b) cs) = 0) as ->; [|ring].
    apply clipped_all in C. rename C into F. clear - F. induction F as [|[[a p] b] cs F1 F IH]; auto. cbn. rewrite F1, IH. ring.
Qed.

(*@ C68_nothing_to_remove *)
(** C68: a polygon without flat corners is left as it is (in any order and direction of its segments). *)
Lemma remove_collinear_none : forall (vs : list (pt RA)) (l : list (seg RA)),
  polygon_of vs l -> (3 <= length vs)%nat -> NoDup vs -> separated vs ->
  (forall a p b, consecutive vs a p b -> ~ flat a p b) ->
  remove_collinear_points l = Ok l.
Proof.
  intros vs l PO L ND SEP NF. unfold remove_collinear_points.
  assert (incl (map si l) vs) as IN.
  { intros x I. apply (polygon_ends vs l PO), in_flat_map. apply in_map_iff in I as (s & <- & I). exists s. cbn. auto. }
  induction (map si l) as [|p ps IH]; [reflexivity|]. cbn [foldM].
  destruct (remove_step_spec vs l p PO (IN p (or_introl eq_refl)) ND SEP L) as (a & b & r & R & [[_ E]|(F & _)]).
  - rewrite E. cbn [bind]. apply IH. intros x Hx. apply IN. cbn. auto.
  - exfalso. apply (NF a p b); auto. apply (consecutive_rotation _ _ _ _ _ _ (rotation_sym _ _ _ R)), consecutive_head.
Qed.

(*@ C68_limit *)
(** C68: with more than 250 corners the first flat corner makes the call raise (order() gives up). *)
Lemma remove_collinear_limit : forall (vs : list (pt RA)) (l : list (seg RA)),
  directed_cycle vs l -> (250 < length vs)%nat -> NoDup vs -> separated vs ->
  (exists a p b, consecutive vs a p b /\ flat a p b) ->
  remove_collinear_points l = Err OtherException.
Proof.
  intros vs l D L ND SEP (a0 & p0 & b0 & CO & FL). destruct (directed_starts _ _ D) as [P PO]. unfold remove_collinear_points.
  assert (I0 : In p0 (map si l)) by (apply (Permutation_in _ (Permutation_sym P)); destruct CO as [CO _]; apply cycle_edges_In in CO; tauto).
  assert (incl (map si l) vs) as IN by (intros x I; apply (Permutation_in _ P); auto).
  clear P D. induction (map si l) as [|p ps IH]; [destruct I0|]. cbn [foldM].
  destruct (remove_step_spec vs l p PO (IN p (or_introl eq_refl)) ND SEP ltac:(lia)) as (a & b & r & R & [[N E]|(F & c1 & (c2 & PM & F2) & E)]); rewrite E.
  - cbn [bind]. apply IH; [|intros x Hx; apply IN; cbn; auto]. destruct I0 as [->|I0]; auto. exfalso. apply N.
    destruct (consecutive_rotation _ _ _ _ _ _ (rotation_sym _ _ _ R) (consecutive_head _ a p0 b r)) as [C1 C2]. destruct CO as [C3 C4].
    rewrite (edges_inj _ _ _ _ _ ND C1 C3), (edges_fun _ _ _ _ _ ND C2 C4). auto.
  - pose proof (rotation_perm _ _ _ R) as RP. pose proof (Permutation_length RP) as RL. cbn [length] in RL.
    assert (ND' : NoDup (a :: p :: b :: r)) by (eapply Permutation_NoDup; eauto).
    assert (SEP' : separated (a :: p :: b :: r)) by (eapply separated_perm; eauto).
    rewrite (order_limit (a :: b :: r) c1 c2); [reflexivity|cbn; lia| | |auto|auto].
    + rewrite !NoDup_cons_iff in *; cbn [In] in *; intuition.
    + apply (separated_incl _ _ SEP'); intros x; cbn; tauto.
Qed.

(*@ C68_mixed_directions_refuted *)
(** Finding (C68), binary64: when two segments start at a flat corner, the corner is visited twice and the
    second visit fails the assertion that the chord is a valid segment. *)
Lemma remove_collinear_mixed : forall L : Libm, exists l : list (seg (FA L)),
  polygon_of (zpts (FA L) [(0, 0); (1, 0); (2, 0); (2, 2); (0, 2)]%Z) l /\
  remove_collinear_points l = Err AssertionError.
Proof.
  intros L. set (p := fun x y => @Point_new (FA L) (nofZ x) (nofZ y)).
  exists [LineSegment (p 1 0) (p 0 0); LineSegment (p 1 0) (p 2 0); LineSegment (p 2 0) (p 2 2); LineSegment (p 2 2) (p 0 2); LineSegment (p 0 2) (p 0 0)]%Z.
  split.
  - eexists. split; [apply Permutation_refl|]. repeat (apply Forall2_cons; [unfold joins; cbn; auto|]). apply Forall2_nil.
  - match goal with |- ?x = _ => assert (match x with Err AssertionError => true | _ => false end = true) as H by (vm_compute; reflexivity);
      destruct x as [?|[]]; try discriminate; reflexivity end.
Qed.
