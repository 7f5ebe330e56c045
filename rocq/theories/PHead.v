(** Torispherical heads (C54). *)
From Coq Require Import Reals ZArith Lra Lia Bool List Permutation Arith Psatz Ratan.
From Verif Require Import Base Arith ArithR ArithF MPoint MLine MPoly MHeap MVessel Spec SpecHeap SpecInside SpecVessel SpecPurge PPoint PLine PPoly PShape PHeap PTri PMake PConvex POrder PInside PPurge PVessel.
Import ListNotations.
#[local] Existing Instance RA.
Open Scope R_scope.

Lemma sin_mul_le : forall n y, Rabs (sin (INR n * y)) <= INR n * Rabs (sin y).
Proof.
  induction n as [|n IH]; intros y; [simpl; rewrite !Rmult_0_l, sin_0, Rabs_R0; lra|].
  rewrite S_INR, Rmult_plus_distr_r, Rmult_1_l, sin_plus. eapply Rle_trans; [apply Rabs_triang|]. rewrite !Rabs_mult.
  specialize (IH y). pose proof (COS_bound y) as C1. pose proof (COS_bound (INR n * y)) as C2.
  assert (Rabs (cos y) <= 1) by (apply Rabs_le; lra). assert (Rabs (cos (INR n * y)) <= 1) by (apply Rabs_le; lra).
  pose proof (Rabs_pos (sin y)). pose proof (Rabs_pos (sin (INR n * y))). pose proof (Rabs_pos (cos y)). pose proof (Rabs_pos (cos (INR n * y))). nra.
Qed.

Lemma circle_shift : forall cx cy r a, circle_pt cx cy r a = translate cx cy (circle_pt 0 0 r a).
Proof. intros. unfold circle_pt, translate. cbn [px py]. f_equal; rring. Qed.

Lemma chord_at : forall cx cy r a b, 0 <= r -> dist (circle_pt cx cy r a) (circle_pt cx cy r b) = 2 * r * Rabs (sin ((b - a) * PI / 360)).
Proof.
  intros. rewrite <- chord by auto. rewrite (circle_shift cx cy r a), (circle_shift cx cy r b). unfold dist, translate. cbn [px py]. f_equal. ring.
Qed.

Lemma dist_box : forall (p q : pt RA), Rabs (px p - px q) < 1 / 10^5 -> Rabs (py p - py q) < 1 / 10^5 -> dist p q <= 1.42 / 10^5.
Proof.
  intros p q A B. pose proof (within_dist1 p q (1 / 10^5) ltac:(lra)) as W. assert (within (1 / 10^5) p q) as W0 by (split; lra). specialize (W W0). lra.
Qed.

Lemma dist_within : forall (p q : pt RA) e, dist p q <= e -> within e p q.
Proof.
  intros p q e D. unfold dist in D. 
  assert (F : forall a b : R, Rabs a <= sqrt (a ^ 2 + b ^ 2)).
  { intros a b. rewrite <- (sqrt_Rsqr_abs a). apply sqrt_le_1_alt. unfold Rsqr. nra. }
  split; [pose proof (F (px p - px q) (py p - py q))|pose proof (F (py p - py q) (px p - px q)) as G; rewrite Rplus_comm in G]; lra.
Qed.

(** ** Pieces *)
Lemma place_spec : forall up u v h P, sound h P -> all_stored h (hsegs P) -> decimal8 u -> decimal8 v ->
  let '(h', P') := place up u v (h, P) in view h' (hsegs P') = map (seg_image (placed up u v)) (view h (hsegs P)).
Proof.
  intros up u v h P SO ST U V. unfold place. destruct up.
  - pose proof (move_exact h P u v SO ST U V) as M. destruct (move (A := RA) u v h P) as [h' P']. destruct M as (M & _). rewrite M. reflexivity.
  - pose proof (rotate_quarter h P 2 SO ST) as RQ. pose proof (rotate_spec h P 180 SO) as RS.
    replace (90 * IZR 2) with 180 in RQ by lra.
    change (rotate_about_origin (nofZ 180) (fst (h, P)) (snd (h, P))) with (rotate_about_origin (A := RA) 180 h P).
    assert (T : let '(h', P') := rotate_about_origin (A := RA) 180 h P in sound h' P' /\ all_stored h' (hsegs P') /\ view h' (hsegs P') = map (seg_image (fun p => @mkpt RA (- px p) (- py p))) (view h (hsegs P))).
    { pose proof (transform_view (rotate_pt (A := RA) 180) h P SO) as TV. pose proof (transform_sound (rotate_pt (A := RA) 180) h P SO) as TS.
      unfold rotate_about_origin in *. 
      assert (E : forall o, In o (objects (hsegs P)) -> rotate_pt (A := RA) 180 (h o) = @mkpt RA (- px (h o)) (- py (h o))).
      { intros o Io. specialize (ST o Io). apply stored_grid in ST as [A1 A2]. rewrite rotate_pt_R. unfold rotate. cbn [px py].
        replace (180 * PI / 180) with PI by field. rewrite cos_PI, sin_PI. f_equal; rewrite Rround8_id; try lra.
        - replace (px (h o) * -1 - py (h o) * 0) with (- px (h o)) by lra. apply grid_opp, A1.
        - replace (px (h o) * 0 + py (h o) * -1) with (- py (h o)) by lra. apply grid_opp, A2. }
      assert (E' : forall p, In p (map h (objects (hsegs P))) -> rotate_pt (A := RA) 180 p = @mkpt RA (- px p) (- py p)).
      { intros p Ip. apply in_map_iff in Ip as (o & <- & Io). auto. }
      change (@nofZ RA 180) with 180 in *.
      destruct (transform (rotate_pt (A := RA) 180) h P) as [h' P']. destruct TV as (V1 & V2 & V3 & V4 & V5 & V6). split; [|split].
      - apply TS. intros p q Ip Iq. rewrite !E' by auto. cbn [px py].
        split; [replace (- px p - - px q) with (- (px p - px q)) by rring|replace (- py p - - py q) with (- (py p - py q)) by rring]; apply Rabs_Ropp.
      - intros o Io. rewrite V6 by auto. apply rotate_within.
      - rewrite V1. apply map_ext_in. intros s Is. unfold view in Is. apply in_map_iff in Is as (hs & <- & Ihs).
        unfold seg_image, seg_view. cbn [sc si sj]. rewrite !E; [reflexivity| |]; apply In_objects; exists hs; auto. }
    destruct (rotate_about_origin (A := RA) 180 h P) as [h' P']. destruct T as (T1 & T2 & T3).
    pose proof (move_exact h' P' u v T1 T2 U V) as M. destruct (move (A := RA) u v h' P') as [h2 P2]. destruct M as (M & _). rewrite M, T3, map_map. reflexivity.
Qed.

Definition walls (vs : list (pt RA)) : list (seg RA) := map (fun e => Wall (fst e) (snd e)) (pairs vs).

Lemma sound_chain : forall (h : heap RA) l vs, separated vs -> (forall p, In p vs -> stored p) ->
  (forall p q, In (p, q) (pairs vs) -> p <> q) -> view h l = walls vs ->
  sound h (mkhp l false) /\ all_stored h l.
Proof.
  intros h l vs SEP ST NE V.
  assert (I : forall o, In o (objects l) -> In (h o) vs).
  { intros o Io. apply (in_map h) in Io. rewrite <- ends_view, V in Io. apply in_flat_map in Io as (s & Is & Ip).
    apply in_map_iff in Is as ((a, b) & <- & Iab). apply In_pairs in Iab as [Ia Ib]. simpl in Ip. destruct Ip as [<-|[<-|[]]]; auto. }
  split; [split; [|split]|].
  - intros p q Ip Iq. apply in_map_iff in Ip as (o & <- & Io). apply in_map_iff in Iq as (o' & <- & Io'). apply SEP; auto.
  - intros s Is E. apply (in_map (seg_view h)) in Is. change (map (seg_view h) (hsegs (mkhp l false))) with (view h l) in Is. rewrite V in Is. apply in_map_iff in Is as ((a, b) & E2 & Iab).
    apply (NE a b Iab). injection E2. intros -> -> _. exact E.
  - discriminate.
  - intros o Io. auto.
Qed.

Lemma arc_piece_spec : forall (c : pt RA) (r a1 a2 : R) (n : nat), stored c ->
  (0 < n)%nat -> 0 <= a1 < 360 -> 0 < a2 <= 360 -> a1 < a2 -> 0 < r -> a2 - a1 <= 180 ->
  1/10^5 <= r * sin ((a2 - a1) / INR n * PI / 360) ->
  exists h P vs, arc_piece c r a1 a2 (Z.of_nat n) = Ok (h, P) /\ sound h P /\ all_stored h (hsegs P) /\ length vs = S n /\
    (forall k p, nth_error vs k = Some p -> within (15/10^9) p (circle_pt (px c) (py c) r (a1 + INR k * (a2 - a1) / INR n))) /\
    view h (hsegs P) = walls vs.
Proof.
  intros c r a1 a2 n ST N0 A1 A2 A3 R0 T180 C1. pose proof (lt_0_INR _ N0) as NR. pose proof PI_RGT_0 as PI0.
  set (step := (a2 - a1) / INR n) in *. assert (ST0 : 0 < step) by (apply Rdiv_lt_0_compat; lra).
  assert (TN : a2 - a1 = INR n * step) by (unfold step; field; lra).
  assert (MONO : forall m, 1 <= m -> m * step <= 180 -> 1/10^5 <= r * sin (m * step * PI / 360)).
  { intros m M1 M2. eapply Rle_trans; [exact C1|]. apply Rmult_le_compat_l; [lra|].
    pose proof (Rmult_lt_0_compat _ _ ST0 PI0) as SP. pose proof (Rmult_le_compat_r PI _ _ ltac:(lra) M2) as MP.
    pose proof (Rmult_le_compat_r (step * PI) _ _ ltac:(lra) M1) as M1'.
    assert (m * step * PI / 360 <= PI / 2) by lra. assert (step * PI / 360 <= m * step * PI / 360) by lra. assert (0 <= step * PI / 360) by lra.
    apply sin_incr_1; lra. }
  assert (N1 : 1 <= INR n) by (apply (le_INR 1); lia).
  destruct (arc_spec (fun _ => c) 0 (px c) (py c) r a1 a2 n false N0) as (h & P & v0 & vs & E & L & K & V & _ & _); auto; try apply ST.
  { left. rewrite TN. apply MONO; [auto|lra]. }
  set (ws := v0 :: vs) in *.
  assert (D : forall i j p q, (i < j <= n)%nat -> nth_error ws i = Some p -> nth_error ws j = Some q -> 2/10^5 - 3/10^8 <= dist p q).
  { intros i j p q LT Hp Hq. destruct (K _ _ Hp) as (D1 & _). destruct (K _ _ Hq) as (D2 & _).
    set (ci := circle_pt (px c) (py c) r (a1 + INR i * (a2 - a1) / INR n)) in *. set (cj := circle_pt (px c) (py c) r (a1 + INR j * (a2 - a1) / INR n)) in *.
    assert (DC : 2/10^5 <= dist ci cj).
    { unfold ci, cj. rewrite chord_at by lra.
      assert (LJ : 1 <= INR (j - i)) by (apply (le_INR 1); lia).
      assert (LJ2 : INR (j - i) <= INR n) by (apply le_INR; lia).
      replace ((a1 + INR j * (a2 - a1) / INR n - (a1 + INR i * (a2 - a1) / INR n)) * PI / 360) with (INR (j - i) * step * PI / 360) by (rewrite minus_INR by lia; unfold step; field; lra).
      assert (M : 1/10^5 <= r * sin (INR (j - i) * step * PI / 360)) by (apply MONO; [auto|nra]).
      pose proof (Rle_abs (sin (INR (j - i) * step * PI / 360))). nra. }
    pose proof (dist_triangle ci p cj). pose proof (dist_triangle p q cj). rewrite (dist_sym ci p) in *. lra. }
  assert (LN : length ws = S n) by (unfold ws; simpl; rewrite L; reflexivity).
  assert (SEP : separated ws).
  { intros p q Ip Iq B1 B2. apply In_nth_error in Ip as (i & Hi). apply In_nth_error in Iq as (j & Hj).
    assert (Li : (i < S n)%nat) by (rewrite <- LN; apply nth_error_Some; congruence). assert (Lj : (j < S n)%nat) by (rewrite <- LN; apply nth_error_Some; congruence).
    pose proof (dist_box p q B1 B2) as DB.
    destruct (lt_eq_lt_dec i j) as [[LT|EQ]|LT]; [|congruence|].
    - pose proof (D i j p q ltac:(lia) Hi Hj). lra.
    - pose proof (D j i q p ltac:(lia) Hj Hi) as DD. rewrite dist_sym in DD. lra. }
  assert (NE : forall p q, In (p, q) (pairs ws) -> p <> q).
  { intros p q I E2. apply In_nth_error in I as [k Kk]. apply pairs_nth in Kk as [K1 K2].
    assert (S k < S n)%nat by (rewrite <- LN; apply nth_error_Some; congruence).
    pose proof (D k (S k) p q ltac:(lia) K1 K2) as DD. rewrite E2 in DD. unfold dist in DD. rewrite !Rminus_eq_0 in DD. replace (0 ^ 2 + 0 ^ 2) with 0 in DD by ring. rewrite sqrt_0 in DD. lra. }
  set (hs := map (fun s => mkh CWall (hi s) (hj s)) (hsegs P)).
  assert (VW : view h hs = walls ws).
  { unfold hs, view, walls. rewrite map_map. cbn [hi hj].
    assert (map (fun s => (si s, sj s)) (view h (hsegs P)) = pairs ws) as Q.
    { rewrite V. unfold chain. rewrite map_map. transitivity (map (fun x => x) (pairs ws)); [apply map_ext; intros [a b]; reflexivity|apply map_id]. }
    rewrite <- Q. unfold view. rewrite !map_map. reflexivity. }
  destruct (sound_chain h hs ws SEP) as [S1 S2]; auto.
  { intros p Ip. apply In_nth_error in Ip as (i & Hi). apply (K _ _ Hi). }
  exists h, (mkhp hs false), ws. unfold arc_piece. rewrite E. cbn [bind]. split; [reflexivity|]. split; [exact S1|]. split; [exact S2|]. split; [exact LN|]. split; [|exact VW].
  intros k p H. apply dist_within. apply (K _ _ H).
Qed.

Lemma wall_piece_spec : forall p q : pt RA, stored p -> stored q -> (1 / 10^5 <= Rabs (px p - px q) \/ 1 / 10^5 <= Rabs (py p - py q)) ->
  let '(h, P) := wall_piece p q in sound h P /\ all_stored h (hsegs P) /\ view h (hsegs P) = walls [p; q].
Proof.
  intros p q Hp Hq FAR. unfold wall_piece.
  assert (V : view (halloc (fun _ => p) 0 [p; q]) [mkh CWall 0 1] = walls [p; q]) by reflexivity.
  assert (FAR' : 1 / 10^5 <= Rabs (px q - px p) \/ 1 / 10^5 <= Rabs (py q - py p)) by (rewrite (Rabs_minus_sym (px q)), (Rabs_minus_sym (py q)); exact FAR).
  destruct (sound_chain (halloc (fun _ => p) 0 [p; q]) [mkh CWall 0 1] [p; q]) as [S1 S2].
  - intros a b [<-|[<-|[]]] [<-|[<-|[]]] A B; auto; exfalso; destruct FAR, FAR'; lra.
  - intros a [<-|[<-|[]]]; auto.
  - intros a b [E|[]]. injection E as <- <-. intros ->. rewrite !Rminus_eq_0, Rabs_R0 in FAR. lra.
  - exact V.
  - auto.
Qed.

(** ** The geometry *)
Lemma sin_half : forall k, sin (half_angle k * PI / 180) = match k with Klopper => 4 / 9 | Korbbogen => 173 / 323 end.
Proof.
  pose proof PI_RGT_0. intros k. unfold half_angle. 
  replace (match k with Klopper => asin (4 / 9) | Korbbogen => asin (173 / 323) end * 180 / PI * PI / 180) with (match k with Klopper => asin (4 / 9) | Korbbogen => asin (173 / 323) end) by (field; lra).
  destruct k; apply sin_asin; lra.
Qed.

Lemma half_range : forall k, 0 < half_angle k < 90.
Proof.
  intros k. pose proof PI_RGT_0. unfold half_angle.
  assert (R : 0 < match k with Klopper => asin (4 / 9) | Korbbogen => asin (173 / 323) end < PI / 2).
  { assert (F : forall t, 0 < t < 1 -> 0 < asin t < PI / 2).
    { intros t T. pose proof (asin_bound t) as B. pose proof (sin_asin t ltac:(lra)) as Q. split.
      - destruct (Rlt_le_dec 0 (asin t)) as [|L]; auto. exfalso.
        assert (sin (asin t) <= sin 0) by (apply sin_incr_1; lra). rewrite sin_0 in *. lra.
      - destruct (Rlt_le_dec (asin t) (PI / 2)) as [|L]; auto. exfalso.
        assert (E : asin t = PI / 2) by lra. rewrite E, sin_PI2 in Q. lra. }
    destruct k; apply F; lra. }
  set (x := match k with Klopper => _ | Korbbogen => _ end) in *. clearbody x.
  split.
  - apply Rdiv_lt_0_compat; lra.
  - apply (Rmult_lt_reg_r PI); [lra|]. replace (x * 180 / PI * PI) with (x * 180) by (field; lra). lra.
Qed.

Lemma cos_half : forall k, 8 / 10 < cos (half_angle k * PI / 180) < 9 / 10 /\ cos (half_angle k * PI / 180) ^ 2 = 1 - sin (half_angle k * PI / 180) ^ 2.
Proof.
  intros k. pose proof (half_range k) as HR. pose proof (sin_half k) as S1. pose proof PI_RGT_0.
  set (x := half_angle k * PI / 180) in *. assert (0 < cos x) by (apply cos_gt_0; unfold x; nra).
  pose proof (sin2_cos2 x) as Q. unfold Rsqr in Q. split; [|nra].
  destruct k; rewrite S1 in Q; nra.
Qed.

(** ** Near cycles *)
Definition near (e : R) (s : seg RA) (ab : pt RA * pt RA) : Prop := within e (si s) (fst ab) /\ within e (sj s) (snd ab).
Definition far (p q : pt RA) : Prop := 13 / 10^6 <= Rabs (px p - px q) \/ 13 / 10^6 <= Rabs (py p - py q).

Lemma far_sym : forall p q, far p q -> far q p.
Proof. intros p q. unfold far. rewrite (Rabs_minus_sym (px p)), (Rabs_minus_sym (py p)). auto. Qed.

Lemma FOP_app : forall X (R : X -> X -> Prop) a b, ForallOrdPairs R a -> ForallOrdPairs R b -> (forall x y, In x a -> In y b -> R x y) -> ForallOrdPairs R (a ++ b).
Proof.
  intros X R a b Ha Hb C. induction Ha as [|x a F Ha IH]; simpl; auto. constructor.
  - apply Forall_app. split; auto. apply Forall_forall. intros y Iy. apply C; [left; auto|auto].
  - apply IH. intros; apply C; [right; auto|auto].
Qed.

Lemma FOP_nth : forall X (R : X -> X -> Prop) l, ForallOrdPairs R l -> forall i j x y, (i < j)%nat -> nth_error l i = Some x -> nth_error l j = Some y -> R x y.
Proof.
  intros X R l F. induction F as [|a l F1 F IH]; intros i j x y L Hi Hj; [destruct i; discriminate|].
  destruct j as [|j]; [lia|]. simpl in Hj. destruct i as [|i].
  - injection Hi as <-. rewrite Forall_forall in F1. apply F1. eapply nth_error_In; eauto.
  - apply (IH i j); auto. lia.
Qed.

Lemma Forall2_nth : forall X Y (P : X -> Y -> Prop) l m k x y, Forall2 P l m -> nth_error l k = Some x -> nth_error m k = Some y -> P x y.
Proof.
  intros X Y P l m k x y F. revert k. induction F; intros [|k] A B; simpl in *; try discriminate; [congruence|eauto].
Qed.

Lemma far_not_close : forall p q p' q', within (4 / 10^8) p' p -> within (4 / 10^8) q' q -> far p q -> ~ close p' q'.
Proof.
  intros p q p' q' [A1 A2] [B1 B2] F [C1 C2]. apply Rabs_le_inv in A1, A2, B1, B2. apply Rabs_def2 in C1, C2.
  destruct F as [F|F]; revert F; unfold Rabs; destruct (Rcase_abs _); lra.
Qed.
Lemma within_close : forall v p q, within (4 / 10^8) p v -> within (4 / 10^8) q v -> close p q.
Proof.
  intros v p q [A1 A2] [B1 B2]. apply Rabs_le_inv in A1, A2, B1, B2. split; apply Rabs_def1; lra.
Qed.

Lemma nth_error_same : forall X (l m : list X), (forall k, nth_error l k = nth_error m k) -> l = m.
Proof.
  induction l as [|x l IH]; intros [|y m] H; auto; try (specialize (H 0%nat); discriminate).
  f_equal; [specialize (H 0%nat); simpl in H; congruence|]. apply IH. intros k. apply (H (S k)).
Qed.
Lemma Forall2_length : forall X Y (P : X -> Y -> Prop) l m, Forall2 P l m -> length l = length m.
Proof. induction 1; simpl; auto. Qed.
(** A chain that is cyclic link by link is the cycle of its first ends. *)
Lemma cycle_of_links : forall X (es : list (X * X)), (forall k a b, nth_error es k = Some (a, b) -> exists c, nth_error es (if Nat.eqb (S k) (length es) then 0 else S k)%nat = Some (b, c)) ->
  es = cycle_edges (map fst es).
Proof.
  intros X es H. apply nth_error_same. intros k. destruct (nth_error es k) as [[a b]|] eqn:E.
  - symmetry. apply cycle_edges_nth. rewrite map_length. split; [apply (map_nth_error fst) in E; exact E|].
    destruct (H k a b E) as [c Hc]. apply (map_nth_error fst) in Hc. exact Hc.
  - symmetry. apply nth_error_None. rewrite cycle_edges_length, map_length. apply nth_error_None. exact E.
Qed.

Lemma near_cycle : forall (h : heap RA) l vs, (2 <= length vs)%nat -> ForallOrdPairs far vs -> some_coincide h l ->
  Forall2 (near (4 / 10^8)) (view h l) (cycle_edges vs) ->
  let P' := purge h (mkhp l false) in
  exists ws, Forall2 (within (4 / 10^8)) ws vs /\ map (fun s => (si s, sj s)) (view h (hsegs P')) = cycle_edges ws /\
    map (@sc RA) (view h (hsegs P')) = map (@sc RA) (view h l) /\ hpurged P' = true /\
    (forall a b, In a (objects (hsegs P')) -> In b (objects (hsegs P')) -> h a = h b -> a = b).
Proof.
  intros h l vs L2 FO SC F P'.
  assert (LN : length l = length vs) by (apply Forall2_length in F; rewrite cycle_edges_length in F; unfold view in F; rewrite map_length in F; exact F).
  (* every object is near a vertex *)
  assert (ED : forall k s, nth_error l k = Some s -> exists a b, nth_error vs k = Some a /\ nth_error vs (if Nat.eqb (S k) (length vs) then 0 else S k)%nat = Some b /\ within (4/10^8) (h (hi s)) a /\ within (4/10^8) (h (hj s)) b).
  { intros k s K. assert (Lk : (k < length (cycle_edges vs))%nat) by (rewrite cycle_edges_length, <- LN; apply nth_error_Some; congruence).
    destruct (nth_error (cycle_edges vs) k) as [[a b]|] eqn:E; [|apply nth_error_None in E; lia].
    pose proof (Forall2_nth _ _ _ _ _ _ _ _ F (map_nth_error (seg_view h) _ _ K) E) as [W1 W2]. apply cycle_edges_nth in E as [E1 E2]. exists a, b. auto. }
  assert (OB : forall o, In o (objects l) -> exists k v, nth_error vs k = Some v /\ within (4/10^8) (h o) v).
  { intros o Io. apply In_objects in Io as (s & Is & Q). apply In_nth_error in Is as [k K]. destruct (ED k s K) as (a & b & E1 & E2 & W1 & W2).
    destruct Q as [->| ->]; eauto. }
  assert (CL : forall i j u v p q, nth_error vs i = Some u -> nth_error vs j = Some v -> within (4/10^8) p u -> within (4/10^8) q v -> close p q -> i = j).
  { intros i j u v p q Hi Hj Wp Wq C. destruct (lt_eq_lt_dec i j) as [[LT|]|LT]; auto; exfalso.
    - apply (far_not_close u v p q Wp Wq); auto. apply (FOP_nth _ _ _ FO i j); auto.
    - apply (far_not_close u v p q Wp Wq); auto. apply far_sym. apply (FOP_nth _ _ _ FO j i); auto. }
  assert (CLU : clustered h l).
  { split.
    - intros a b c Ia Ib Ic C1 C2. destruct (OB a Ia) as (i & u & Hi & Wa). destruct (OB b Ib) as (j & v & Hj & Wb). destruct (OB c Ic) as (m & w & Hm & Wc).
      pose proof (CL _ _ _ _ _ _ Hi Hj Wa Wb C1) as E1. pose proof (CL _ _ _ _ _ _ Hj Hm Wb Wc C2) as E2. subst j m.
      assert (w = u) as -> by congruence. apply (within_close u); auto.
    - intros s Is C. apply In_nth_error in Is as [k K]. destruct (ED k s K) as (a & b & E1 & E2 & W1 & W2).
      pose proof (CL _ _ _ _ _ _ E1 E2 W1 W2 C) as Q. destruct (Nat.eqb_spec (S k) (length vs)); lia. }
  destruct (purge_clusters h l CLU SC) as (F2 & I & HP & U). fold P' in F2, I, HP, U.
  pose proof (Forall2_length _ _ _ _ _ F2) as LN2.
  (* the ends after purging *)
  assert (MOVE : forall o o' k v, In o (objects l) -> In o' (objects l) -> nth_error vs k = Some v -> within (4/10^8) (h o) v -> close (h o') (h o) -> within (4/10^8) (h o') v).
  { intros o o' k v Io Io' Hk W C. destruct (OB o' Io') as (j & u & Hj & W'). pose proof (CL _ _ _ _ _ _ Hj Hk W' W C) as ->. congruence. }
  assert (ED' : forall k s', nth_error (hsegs P') k = Some s' -> exists a b, nth_error vs k = Some a /\ nth_error vs (if Nat.eqb (S k) (length vs) then 0 else S k)%nat = Some b /\ within (4/10^8) (h (hi s')) a /\ within (4/10^8) (h (hj s')) b).
  { intros k s' K'. assert (Lk : (k < length l)%nat) by (rewrite LN2; apply nth_error_Some; congruence).
    destruct (nth_error l k) as [s|] eqn:K; [|apply nth_error_None in K; lia].
    pose proof (Forall2_nth _ _ _ _ _ _ _ _ F2 K K') as (_ & C1 & C2). destruct (ED k s K) as (a & b & E1 & E2 & W1 & W2). exists a, b. split; auto. split; auto.
    assert (O1 : In (hi s) (objects l) /\ In (hj s) (objects l)) by (split; apply In_objects; exists s; split; auto; eapply nth_error_In; eauto).
    assert (O2 : In (hi s') (objects l) /\ In (hj s') (objects l)) by (split; apply I; apply In_objects; exists s'; split; auto; eapply nth_error_In; eauto).
    destruct O1, O2. split; [exact (MOVE (hi s) (hi s') _ _ H H1 E1 W1 C1)|exact (MOVE (hj s) (hj s') _ _ H0 H2 E2 W2 C2)]. }
  assert (LINK : map (fun s => (hi s, hj s)) (hsegs P') = cycle_edges (map (fun s => hi s) (hsegs P'))).
  { rewrite <- (map_map (fun s => (hi s, hj s)) fst). apply cycle_of_links. rewrite map_length, <- LN2, LN. intros k a b E.
    rewrite nth_error_map in E. destruct (nth_error (hsegs P') k) as [s|] eqn:K; [|discriminate]. injection E as <- <-.
    destruct (ED' k s K) as (va & vb & _ & E2 & _ & W2). set (k' := (if Nat.eqb (S k) (length vs) then 0 else S k)%nat) in *.
    assert (Lk' : (k' < length (hsegs P'))%nat) by (rewrite <- LN2, LN; apply nth_error_Some; congruence).
    destruct (nth_error (hsegs P') k') as [s'|] eqn:K'; [|apply nth_error_None in K'; lia].
    destruct (ED' k' s' K') as (va' & vb' & E1' & _ & W1' & _). assert (va' = vb) as -> by congruence.
    exists (hj s'). rewrite (map_nth_error _ _ _ K'). f_equal. f_equal.
    apply U; [| |apply (within_close vb); auto]; apply In_objects; [exists s'|exists s]; split; auto; eapply nth_error_In; eauto. }
  exists (map (fun s => h (hi s)) (hsegs P')). split; [|split; [|split; [|split]]].
  - assert (G : forall xs, length xs = length vs -> (forall k p v, nth_error xs k = Some p -> nth_error vs k = Some v -> within (4/10^8) p v) -> Forall2 (within (4/10^8)) xs vs).
    { clear. induction vs as [|v vs IH]; intros [|p xs] L H; try discriminate; constructor.
      - apply (H 0%nat); reflexivity.
      - apply IH; [simpl in L; lia|]. intros k. apply (H (S k)). }
    apply G; [rewrite map_length; lia|]. intros k p v E1 E2. rewrite nth_error_map in E1. destruct (nth_error (hsegs P') k) as [s'|] eqn:K; [|discriminate].
    injection E1 as <-. destruct (ED' k s' K) as (a & b & E3 & _ & W & _). congruence.
  - rewrite <- (map_map (fun s => hi s) h), cycle_edges_map, <- LINK. unfold view. rewrite !map_map. reflexivity.
  - unfold view. rewrite !map_map. clear - F2. generalize (hsegs P') F2. clear. intros m F2. induction F2 as [|s s' l m (Q & _) _ IH]; cbn [map]; [reflexivity|]. f_equal; [exact Q|exact IH].
  - exact HP.
  - intros a b Ia Ib E. apply U; auto. rewrite E. unfold close. rewrite !Rminus_eq_0, Rabs_R0. lra.
Qed.

(** ** The ideal outline *)
Definition rad (t : R) : R := t * PI / 180.
Lemma at90 : forall cx cy r t, px (circle_pt cx cy r (90 + t)) = cx - r * sin (rad t) /\ py (circle_pt cx cy r (90 + t)) = cy + r * cos (rad t).
Proof.
  intros. unfold circle_pt, rad. cbn [px py]. replace ((90 + t) * PI / 180) with (PI / 2 + t * PI / 180) by field.
  rewrite cos_plus, sin_plus, cos_PI2, sin_PI2. split; rring.
Qed.
Lemma rad_le : forall a b, a <= b -> rad a <= rad b.
Proof. intros. unfold rad. pose proof PI_RGT_0. apply Rmult_le_compat_r; [lra|]. apply Rmult_le_compat_r; lra. Qed.
Lemma sin_le : forall a b, -90 <= a -> a <= b -> b <= 90 -> sin (rad a) <= sin (rad b).
Proof.
  intros a b A B C. pose proof (rad_le _ _ A). pose proof (rad_le _ _ B). pose proof (rad_le _ _ C).
  assert (rad (-90) = - (PI / 2)) by (unfold rad; field). assert (rad 90 = PI / 2) by (unfold rad; field). apply sin_incr_1; lra.
Qed.
Lemma cos_nonneg : forall t, -90 <= t <= 90 -> 0 <= cos (rad t).
Proof.
  intros t [A B]. pose proof (rad_le _ _ A). pose proof (rad_le _ _ B).
  assert (rad (-90) = - (PI / 2)) by (unfold rad; field). assert (rad 90 = PI / 2) by (unfold rad; field). apply cos_ge_0; lra.
Qed.
Lemma rad_opp : forall t, rad (- t) = - rad t. Proof. intros. unfold rad. field. Qed.
Lemma sin_rad_opp : forall t, sin (rad (- t)) = - sin (rad t). Proof. intros. rewrite rad_opp. apply sin_neg. Qed.
Lemma cos_ge_of : forall a t, 0 <= a <= 90 -> - a <= t <= a -> cos (rad a) <= cos (rad t).
Proof.
  intros a t A T. pose proof PI_RGT_0. assert (rad 90 = PI / 2) by (unfold rad; field). assert (rad 0 = 0) by (unfold rad; field).
  assert (Q : forall u, 0 <= u <= a -> cos (rad a) <= cos (rad u)).
  { intros u U. pose proof (rad_le 0 u ltac:(lra)). pose proof (rad_le u a ltac:(lra)). pose proof (rad_le a 90 ltac:(lra)). apply cos_decr_1; lra. }
  destruct (Rle_dec 0 t); [apply Q; lra|]. replace t with (- (- t)) by ring. rewrite rad_opp, cos_neg. apply Q; lra.
Qed.

Lemma dist_far : forall p q, 2 / 10^5 <= dist p q -> far p q.
Proof.
  intros p q D. unfold far. destruct (Rle_lt_dec (13/10^6) (Rabs (px p - px q))) as [|A]; auto. destruct (Rle_lt_dec (13/10^6) (Rabs (py p - py q))) as [|B]; auto. exfalso.
  pose proof (within_dist1 p q (13/10^6) ltac:(lra)) as W. assert (within (13/10^6) p q) as W0 by (split; lra). specialize (W W0). lra.
Qed.

Lemma arc_far : forall cx cy r b t N i j, (i < j <= N)%nat -> 0 < r -> 0 < t <= 180 -> 1 / 10^5 <= r * sin (t / INR N * PI / 360) ->
  far (circle_pt cx cy r (b + INR i * t / INR N)) (circle_pt cx cy r (b + INR j * t / INR N)).
Proof.
  intros cx cy r b t N i j L R0 T C. pose proof PI_RGT_0 as PI0. assert (NR : 0 < INR N) by (apply lt_0_INR; lia).
  apply dist_far. rewrite chord_at by lra. set (step := t / INR N) in *. assert (ST0 : 0 < step) by (apply Rdiv_lt_0_compat; lra).
  assert (LJ : 1 <= INR (j - i)) by (apply (le_INR 1); lia). assert (LJ2 : INR (j - i) <= INR N) by (apply le_INR; lia).
  replace ((b + INR j * t / INR N - (b + INR i * t / INR N)) * PI / 360) with (INR (j - i) * step * PI / 360) by (rewrite minus_INR by lia; unfold step; field; lra).
  assert (TN : t = INR N * step) by (unfold step; field; lra).
  assert (M2 : INR (j - i) * step <= 180) by nra.
  pose proof (Rmult_lt_0_compat _ _ ST0 PI0) as SP. pose proof (Rmult_le_compat_r PI _ _ ltac:(lra) M2) as MP.
  pose proof (Rmult_le_compat_r (step * PI) _ _ ltac:(lra) LJ) as M1'.
  assert (SI : sin (step * PI / 360) <= sin (INR (j - i) * step * PI / 360)) by (apply sin_incr_1; lra).
  pose proof (Rle_abs (sin (INR (j - i) * step * PI / 360))). nra.
Qed.

Lemma x_far : forall p q m, px q <= m -> m + 13 / 10^6 <= px p -> far p q.
Proof. intros p q m A B. left. pose proof (Rle_abs (px p - px q)). lra. Qed.
Lemma y_far : forall p q m, py q <= m -> m + 13 / 10^6 <= py p -> far p q.
Proof. intros p q m A B. right. pose proof (Rle_abs (py p - py q)). lra. Qed.

Lemma sin_small : forall n t, (0 < n)%nat -> 0 <= t <= 180 -> sin (rad t) / INR n <= sin (rad (t / INR n)).
Proof.
  intros n t N T. pose proof PI_RGT_0. assert (NR : 0 < INR n) by (apply lt_0_INR; lia). assert (1 <= INR n) by (apply (le_INR 1); lia).
  assert (TB : 0 <= t / INR n <= 180).
  { split; [apply Rmult_le_pos; [lra|apply Rlt_le, Rinv_0_lt_compat; lra]|]. apply (Rmult_le_reg_r (INR n)); [lra|]. replace (t / INR n * INR n) with t by (field; lra). nra. }
  pose proof (sin_mul_le n (rad (t / INR n))) as M. replace (INR n * rad (t / INR n)) with (rad t) in M by (unfold rad; field; lra).
  assert (P0 : forall u, 0 <= u <= 180 -> 0 <= sin (rad u)).
  { intros u U. pose proof (rad_le 0 u ltac:(lra)). pose proof (rad_le u 180 ltac:(lra)). assert (rad 0 = 0) by (unfold rad; field). assert (rad 180 = PI) by (unfold rad; field).
    apply sin_ge_0; lra. }
  rewrite !Rabs_pos_eq in M by auto. apply (Rmult_le_reg_r (INR n)); [lra|]. replace (sin (rad t) / INR n * INR n) with (sin (rad t)) by (field; lra). lra.
Qed.

Section Head.
Variables (k : head) (d h1 : R).
Hypothesis D1 : 1 / 100 <= d.
Notation a := (half_angle k).
Notation R1 := (crown k d).
Notation R2 := (knuckle k d).
Notation sA := (sin (rad a)).
Notation cA := (cos (rad a)).

Lemma basics : 0 < a < 90 /\ 44 / 100 <= sA <= 54 / 100 /\ 8 / 10 < cA < 9 / 10 /\ cA ^ 2 + sA ^ 2 = 1 /\
  0 < R2 /\ 1 / 10 * d <= R2 < R1 /\ 8 / 10 * d <= R1 <= d /\ d / 2 - R2 = (R1 - R2) * sA /\ depth k d = (R1 - R2) * cA.
Proof.
  pose proof (half_range k) as HR. pose proof (sin_half k) as HS. destruct (cos_half k) as [HC1 HC2].
  change (half_angle k * PI / 180) with (rad a) in *.
  assert (G : 0 < R2 /\ 1 / 10 * d <= R2 < R1 /\ 8 / 10 * d <= R1 <= d) by (unfold crown, knuckle; destruct k; lra).
  assert (DS : d / 2 - R2 = (R1 - R2) * sA) by (rewrite HS; unfold crown, knuckle; destruct k; field).
  assert (44 / 100 <= sA <= 54 / 100) by (rewrite HS; destruct k; lra).
  repeat split; try tauto; try lra.
  unfold depth. replace ((R1 - R2) ^ 2 - (d / 2 - R2) ^ 2) with (((R1 - R2) * cA) * ((R1 - R2) * cA)).
  - apply sqrt_square. assert (0 < R1 - R2) by lra. nra.
  - rewrite DS. transitivity ((R1 - R2) ^ 2 * (cA ^ 2)); [ring|]. rewrite HC2. ring.
Qed.

Hypothesis H1 : 2 / 10^5 <= h1.
Notation Kr j := (circle_pt (d / 2 - knuckle k d) h1 (knuckle k d) (INR j * (90 - a) / 3)).
Notation Cr j := (circle_pt 0 (h1 - depth k d) (crown k d) (90 - a + INR j * (2 * a) / 8)).
Notation Kl j := (circle_pt (- (d / 2 - knuckle k d)) h1 (knuckle k d) (90 + a + INR j * (90 - a) / 3)).

Lemma knuckle_chord : 1 / 10^5 <= R2 * sin ((90 - a) / INR 3 * PI / 360).
Proof.
  destruct basics as (A & S1 & C1 & _ & B1 & B2 & _).
  pose proof (sin_small 6 (90 - a) ltac:(lia) ltac:(lra)) as S2.
  replace ((90 - a) / INR 3 * PI / 360) with (rad ((90 - a) / INR 6)) by (unfold rad; simpl; field).
  assert (E : sin (rad (90 - a)) = cA) by (unfold rad; replace ((90 - a) * PI / 180) with (PI / 2 - a * PI / 180) by field; rewrite sin_shift; reflexivity).
  rewrite E in S2. replace (INR 6) with 6 in * by (simpl; ring). nra.
Qed.
Lemma crown_chord : 1 / 10^5 <= R1 * sin (2 * a / INR 8 * PI / 360).
Proof.
  destruct basics as (A & S1 & C1 & _ & B1 & B2 & B3 & _).
  pose proof (sin_small 8 a ltac:(lia) ltac:(lra)) as S2.
  replace (2 * a / INR 8 * PI / 360) with (rad (a / INR 8)) by (unfold rad; simpl; field).
  replace (INR 8) with 8 in * by (simpl; ring). nra.
Qed.

Lemma Kr_at : forall j, (j <= 3)%nat -> R1 * sA <= px (Kr j) /\ h1 <= py (Kr j).
Proof.
  intros j L. destruct basics as (A & S1 & C1 & _ & B1 & B2 & B3 & E1 & E2).
  assert (J : 0 <= INR j <= 3) by (split; [apply pos_INR|apply (le_INR j 3) in L; simpl in L; lra]).
  replace (INR j * (90 - a) / 3) with (90 + (INR j * (90 - a) / 3 - 90)) by ring. destruct (at90 (d / 2 - R2) h1 R2 (INR j * (90 - a) / 3 - 90)) as [-> ->].
  assert (T : -90 <= INR j * (90 - a) / 3 - 90 <= - a) by nra. set (t := INR j * (90 - a) / 3 - 90) in *.
  pose proof (sin_le t (- a) ltac:(lra) ltac:(lra) ltac:(lra)) as Q. rewrite sin_rad_opp in Q. pose proof (cos_nonneg t ltac:(lra)). split; nra.
Qed.
Lemma Kl_at : forall j, (j <= 3)%nat -> px (Kl j) <= - (R1 * sA) /\ h1 <= py (Kl j).
Proof.
  intros j L. destruct basics as (A & S1 & C1 & _ & B1 & B2 & B3 & E1 & E2).
  assert (J : 0 <= INR j <= 3) by (split; [apply pos_INR|apply (le_INR j 3) in L; simpl in L; lra]).
  replace (90 + a + INR j * (90 - a) / 3) with (90 + (a + INR j * (90 - a) / 3)) by ring. destruct (at90 (- (d / 2 - R2)) h1 R2 (a + INR j * (90 - a) / 3)) as [-> ->].
  assert (T : a <= a + INR j * (90 - a) / 3 <= 90) by nra. set (t := a + INR j * (90 - a) / 3) in *.
  pose proof (sin_le a t ltac:(lra) ltac:(lra) ltac:(lra)) as Q. pose proof (cos_nonneg t ltac:(lra)). split; nra.
Qed.
Lemma Cr_at : forall j, (1 <= j <= 7)%nat -> Rabs (px (Cr j)) <= R1 * sin (rad (3 / 4 * a)) /\ h1 <= py (Cr j).
Proof.
  intros j [L1 L2]. destruct basics as (A & S1 & C1 & _ & B1 & B2 & B3 & E1 & E2).
  assert (J : 1 <= INR j <= 7) by (apply (le_INR 1) in L1; apply (le_INR j 7) in L2; simpl in *; lra).
  replace (90 - a + INR j * (2 * a) / 8) with (90 + (INR j * (2 * a) / 8 - a)) by ring. destruct (at90 0 (h1 - depth k d) R1 (INR j * (2 * a) / 8 - a)) as [-> ->].
  assert (T : - (3 / 4 * a) <= INR j * (2 * a) / 8 - a <= 3 / 4 * a) by nra. set (t := INR j * (2 * a) / 8 - a) in *.
  pose proof (sin_le t (3 / 4 * a) ltac:(lra) ltac:(lra) ltac:(lra)) as Q1. pose proof (sin_le (- (3 / 4 * a)) t ltac:(lra) ltac:(lra) ltac:(lra)) as Q2. rewrite sin_rad_opp in Q2.
  pose proof (cos_ge_of a t ltac:(lra) ltac:(lra)) as Q3. split; [apply Rabs_le; nra|]. rewrite E2. nra.
Qed.
Lemma crown_gap : R1 * sin (rad (3 / 4 * a)) + 2 / 10^5 <= R1 * sA.
Proof.
  destruct basics as (A & S1 & C1 & _ & B1 & B2 & B3 & E1 & E2).
  assert (G : 1 / 10^2 <= sA - sin (rad (3 / 4 * a))); [|nra].
  replace (rad a) with (rad (7 / 8 * a) + rad (a / 8)) by (unfold rad; field).
  replace (rad (3 / 4 * a)) with (rad (7 / 8 * a) - rad (a / 8)) by (unfold rad; field).
  rewrite sin_plus, sin_minus.
  pose proof (sin_small 8 a ltac:(lia) ltac:(lra)) as S2. replace (INR 8) with 8 in S2 by (simpl; ring).
  pose proof (cos_ge_of a (7 / 8 * a) ltac:(lra) ltac:(lra)). nra.
Qed.

Lemma join_right : Cr 0 = Kr 3.
Proof.
  destruct basics as (A & S1 & C1 & _ & B1 & B2 & B3 & E1 & E2).
  replace (90 - a + INR 0 * (2 * a) / 8) with (90 + - a) by (simpl; field). replace (INR 3 * (90 - a) / 3) with (90 + - a) by (simpl; field).
  destruct (at90 0 (h1 - depth k d) R1 (- a)) as [X1 Y1]. destruct (at90 (d / 2 - R2) h1 R2 (- a)) as [X2 Y2].
  rewrite sin_rad_opp in X1, X2. rewrite rad_opp, cos_neg in Y1, Y2. rewrite E1 in X2. rewrite E2 in Y1.
  unfold circle_pt in *. cbn [px py] in *. f_equal; [etransitivity; [exact X1|rewrite E1; etransitivity; [|symmetry; exact X2]; ring]|].
  rewrite E2. etransitivity; [exact Y1|etransitivity; [|symmetry; exact Y2]; ring].
Qed.
Lemma join_left : Cr 8 = Kl 0.
Proof.
  destruct basics as (A & S1 & C1 & _ & B1 & B2 & B3 & E1 & E2).
  replace (90 - a + INR 8 * (2 * a) / 8) with (90 + a) by (simpl; field). replace (90 + a + INR 0 * (90 - a) / 3) with (90 + a) by (simpl; field).
  destruct (at90 0 (h1 - depth k d) R1 a) as [X1 Y1]. destruct (at90 (- (d / 2 - R2)) h1 R2 a) as [X2 Y2].
  rewrite E1 in X2. rewrite E2 in Y1.
  unfold circle_pt in *. cbn [px py] in *. f_equal; [etransitivity; [exact X1|rewrite E1; etransitivity; [|symmetry; exact X2]; ring]|].
  rewrite E2. etransitivity; [exact Y1|etransitivity; [|symmetry; exact Y2]; ring].
Qed.
Lemma Kr_first : Kr 0 = @mkpt RA (d / 2) h1.
Proof. unfold circle_pt. replace (INR 0 * (90 - a) / 3 * PI / 180) with 0 by (simpl; field). rewrite cos_0, sin_0. f_equal; rring. Qed.
Lemma Kl_last : Kl 3 = @mkpt RA (- (d / 2)) h1.
Proof.
  unfold circle_pt. replace ((90 + a + INR 3 * (90 - a) / 3) * PI / 180) with PI by (simpl; field). rewrite cos_PI, sin_PI. f_equal; rring.
Qed.

Lemma outline_far : ForallOrdPairs far (outline k d h1).
Proof.
  destruct basics as (A & S1 & C1 & _ & B1 & B2 & B3 & E1 & E2). pose proof crown_gap as CG. pose proof crown_chord as CC. pose proof knuckle_chord as KC.
  assert (Y : forall p, In p (map (fun j => Kr j) (seq 0 4) ++ map (fun j => Cr j) (seq 1 7) ++ map (fun j => Kl j) (seq 0 4)) -> h1 <= py p).
  { intros p I. apply in_app_iff in I as [I|I]; [|apply in_app_iff in I as [I|I]]; apply in_map_iff in I as (j & <- & I); apply in_seq in I; [apply Kr_at; lia|apply Cr_at; lia|apply Kl_at; lia]. }
  assert (ARC : forall (f : nat -> pt RA) m n, (forall i j, (i < j)%nat -> (m <= i)%nat -> (j < m + n)%nat -> far (f i) (f j)) -> ForallOrdPairs far (map f (seq m n))).
  { intros f m n. revert m. induction n as [|n IH]; intros m H; simpl; constructor.
    - apply Forall_forall. intros p I. apply in_map_iff in I as (j & <- & I). apply in_seq in I. apply H; lia.
    - apply IH. intros; apply H; lia. }
  assert (T3 : INR 3 = 3) by (simpl; ring). assert (T8 : INR 8 = 8) by (simpl; ring).
  unfold outline. apply FOP_app; [repeat constructor| |].
  2: { intros x y [<-|[]] I. change (map (fun j => Kr j) (seq 0 4) ++ map (fun j => Cr j) (seq 1 7) ++ map (fun j => Kl j) (seq 0 4) ++ [@mkpt RA (- (d / 2)) 0])
         with (map (fun j => Kr j) (seq 0 4) ++ map (fun j => Cr j) (seq 1 7) ++ (map (fun j => Kl j) (seq 0 4) ++ [@mkpt RA (- (d / 2)) 0])) in I.
       rewrite !app_assoc in I. apply in_app_iff in I as [I|[<-|[]]].
       - rewrite <- app_assoc in I. apply Y in I. apply far_sym. apply (y_far _ _ 0); cbn [px py]; lra.
       - apply (x_far _ _ (- (d / 2))); cbn [px py]; lra. }
  apply FOP_app; [apply ARC; intros i j L1 L2 L3| |].
  { replace (INR i * (90 - a) / 3) with (0 + INR i * (90 - a) / INR 3) by (rewrite T3; ring). replace (INR j * (90 - a) / 3) with (0 + INR j * (90 - a) / INR 3) by (rewrite T3; ring).
    apply arc_far; [lia|lra|lra|exact KC]. }
  2: { intros x y I J. apply in_map_iff in I as (i & <- & I). apply in_seq in I. destruct (Kr_at i ltac:(lia)) as [X1 Y1].
       assert (0 < R1 * sA) by nra. apply in_app_iff in J as [J|J]; [|apply in_app_iff in J as [J|[<-|[]]]].
       - apply in_map_iff in J as (j & <- & J). apply in_seq in J. destruct (Cr_at j ltac:(lia)) as [X2 Y2]. apply Rabs_le_inv in X2.
         apply (x_far _ _ (R1 * sin (rad (3 / 4 * a)))); lra.
       - apply in_map_iff in J as (j & <- & J). apply in_seq in J. destruct (Kl_at j ltac:(lia)) as [X2 Y2]. apply (x_far _ _ 0); [lra|]. nra.
       - apply (x_far _ _ (- (d / 2))); cbn [px py]; lra. }
  apply FOP_app; [apply ARC; intros i j L1 L2 L3| |].
  { rewrite <- T8. apply arc_far; [lia|lra|lra|exact CC]. }
  2: { intros x y I J. apply in_map_iff in I as (i & <- & I). apply in_seq in I. destruct (Cr_at i ltac:(lia)) as [X1 Y1]. apply Rabs_le_inv in X1.
       assert (0 < R1 * sA) by nra. apply in_app_iff in J as [J|[<-|[]]].
       - apply in_map_iff in J as (j & <- & J). apply in_seq in J. destruct (Kl_at j ltac:(lia)) as [X2 Y2]. apply (x_far _ _ (- (R1 * sA))); lra.
       - apply (y_far _ _ 0); cbn [px py]; lra. }
  apply FOP_app; [apply ARC; intros i j L1 L2 L3|repeat constructor|].
  { replace (INR i * (90 - a) / 3) with (INR i * (90 - a) / INR 3) by (rewrite T3; ring). replace (INR j * (90 - a) / 3) with (INR j * (90 - a) / INR 3) by (rewrite T3; ring).
    apply arc_far; [lia|lra|lra|exact KC]. }
  intros x y I [<-|[]]. apply in_map_iff in I as (i & <- & I). apply in_seq in I. destruct (Kl_at i ltac:(lia)) as [X1 Y1]. apply (y_far _ _ 0); cbn [px py]; lra.
Qed.
End Head.

(** ** Gluing *)
Lemma map_combine_seq : forall X Y (f : nat * X -> Y) (g : X -> Y) ps off, (forall r x, nth_error ps r = Some x -> f ((off + r)%nat, x) = g x) ->
  map f (combine (seq off (length ps)) ps) = map g ps.
Proof.
  intros X Y f g ps. induction ps as [|x ps IH]; intros off H; [reflexivity|]. cbn [length seq combine map]. f_equal.
  - rewrite <- (H 0%nat x eq_refl). rewrite Nat.add_0_r. reflexivity.
  - apply IH. intros r y E. rewrite <- (H (S r) y E). rewrite Nat.add_succ_r. reflexivity.
Qed.

Lemma glue_view : forall (ps : list (piece (A := RA))), view (fst (glue ps)) (hsegs (snd (glue ps))) = flat_map (fun x => view (fst x) (hsegs (snd x))) ps.
Proof.
  intros ps. unfold glue, piece in *. cbn [fst snd hsegs]. unfold view at 1. rewrite concat_map, map_map, flat_map_concat_map. f_equal.
  refine (map_combine_seq _ _ _ (fun x => view (fst x) (hsegs (snd x))) ps 0%nat _). intros r x E. rewrite Nat.add_0_l, map_map. unfold view. apply map_ext. intros s.
  assert (L : (r < length ps)%nat) by (apply nth_error_Some; intros Z; assert (B : Some x = None) by (etransitivity; [symmetry; exact E|exact Z]); discriminate B).
  assert (Q : forall i, ((i * length ps + r) mod length ps = r /\ (i * length ps + r) / length ps = i)%nat).
  { intros i. split.
    - rewrite Nat.add_comm, Nat.mod_add by lia. apply Nat.mod_small. exact L.
    - rewrite Nat.add_comm, Nat.div_add by lia. rewrite Nat.div_small by exact L. reflexivity. }
  unfold seg_view. cbn [hc hi hj]. destruct (Q (hi s)) as [-> ->]. destruct (Q (hj s)) as [-> ->]. rewrite E. reflexivity.
Qed.

Lemma coincide_view : forall (h : heap RA) l i j p, i <> j -> nth_error (flat_map ij (view h l)) i = Some p -> nth_error (flat_map ij (view h l)) j = Some p -> some_coincide h l.
Proof.
  intros h l i j p N Hi Hj. rewrite ends_view, nth_error_map in Hi, Hj.
  destruct (nth_error (objects l) i) as [a|] eqn:E1; [|discriminate]. destruct (nth_error (objects l) j) as [b|] eqn:E2; [|discriminate].
  simpl in Hi, Hj. injection Hi as Hi. injection Hj as Hj. exists i, j, a, b. split; [exact N|]. split; [exact E1|]. split; [exact E2|]. etransitivity; [exact Hi|symmetry; exact Hj].
Qed.

Lemma outline_cycle : forall (v0 v16 : pt RA) (Kr Cr Kl : nat -> pt RA), Cr 0%nat = Kr 3%nat -> Cr 8%nat = Kl 0%nat ->
  cycle_edges ([v0] ++ map Kr (seq 0 4) ++ map Cr (seq 1 7) ++ map Kl (seq 0 4) ++ [v16]) =
  pairs [v0; Kr 0%nat] ++ pairs (map Kr (seq 0 4)) ++ pairs (map Cr (seq 0 9)) ++ pairs (map Kl (seq 0 4)) ++ pairs [Kl 3%nat; v16] ++ [(v16, v0)].
Proof. intros v0 v16 Kr Cr Kl E1 E2. cbn. rewrite E1, E2. reflexivity. Qed.

Lemma placed_diff : forall up u v p q, exists e : R, (e = 1 \/ e = -1) /\
  px (placed up u v p) - px (placed up u v q) = e * (px p - px q) /\ py (placed up u v p) - py (placed up u v q) = e * (py p - py q).
Proof.
  intros up u v p q. exists (if up then 1 else -1). split; [destruct up; auto|]. unfold placed, translate. destruct up; cbn [px py]; split; rring.
Qed.
Lemma abs_sign : forall e x, e = 1 \/ e = -1 -> Rabs (e * x) = Rabs x.
Proof. intros e x [-> | ->]; [rewrite Rmult_1_l; reflexivity|replace (-1 * x) with (- x) by ring; apply Rabs_Ropp]. Qed.
Lemma placed_within : forall up u v e p q, within e p q -> within e (placed up u v p) (placed up u v q).
Proof.
  intros up u v e p q [A B]. destruct (placed_diff up u v p q) as (s & S1 & X & Y). unfold within.
  split; [rewrite X|rewrite Y]; rewrite abs_sign; auto.
Qed.
Lemma placed_far : forall up u v p q, far p q -> far (placed up u v p) (placed up u v q).
Proof.
  intros up u v p q F. unfold far in *. destruct (placed_diff up u v p q) as (s & S1 & X & Y). rewrite X, Y, !abs_sign; auto.
Qed.
Lemma FOP_map : forall X Y (R : X -> X -> Prop) (S : Y -> Y -> Prop) (f : X -> Y) l, (forall x y, R x y -> S (f x) (f y)) -> ForallOrdPairs R l -> ForallOrdPairs S (map f l).
Proof.
  intros X Y R S f l H F. induction F as [|x l F1 F IH]; simpl; constructor; auto. apply Forall_map. eapply Forall_impl; [|exact F1]. auto.
Qed.

Lemma piece_near : forall T e vs vs', (forall p q, within e p q -> within e (T p) (T q)) -> Forall2 (within e) vs vs' ->
  Forall2 (near e) (map (seg_image T) (walls vs)) (map (fun x => (T (fst x), T (snd x))) (pairs vs')).
Proof.
  intros T e vs vs' HT F. unfold walls. induction F as [|p p' vs vs' W F IH]; [constructor|].
  destruct F as [|q q' vs vs' W' F]; [constructor|].
  change (pairs (p :: q :: vs)) with ((p, q) :: pairs (q :: vs)). change (pairs (p' :: q' :: vs')) with ((p', q') :: pairs (q' :: vs')).
  cbn [map]. constructor; [|exact IH]. split; cbn; auto.
Qed.

Lemma Forall2_ideal : forall e vs (f : nat -> pt RA) m n, length vs = n -> (forall k p, nth_error vs k = Some p -> within e p (f (m + k)%nat)) -> Forall2 (within e) vs (map f (seq m n)).
Proof.
  intros e vs f. induction vs as [|p vs IH]; intros m n L H; subst n; simpl; constructor.
  - specialize (H 0%nat p eq_refl). rewrite Nat.add_0_r in H. exact H.
  - apply IH; auto. intros k q E. specialize (H (S k) q E). rewrite Nat.add_succ_r in H. exact H.
Qed.

Lemma within_mono : forall a b p q, a <= b -> within a p q -> within b p q.
Proof. intros a b p q L [A B]. split; lra. Qed.
Lemma within_trans : forall a b p q r, within a p q -> within b q r -> within (a + b) p r.
Proof.
  intros a b p q r [A1 A2] [B1 B2]. apply Rabs_le_inv in A1, A2, B1, B2. split; apply Rabs_le; lra.
Qed.
Lemma circle_within : forall e cx cy cx' cy' r deg, Rabs (cx - cx') <= e -> Rabs (cy - cy') <= e -> within e (circle_pt cx cy r deg) (circle_pt cx' cy' r deg).
Proof.
  intros. unfold circle_pt. split; cbn [px py]; [match goal with |- Rabs ?x <= _ => replace x with (cx - cx') by rring end|match goal with |- Rabs ?x <= _ => replace x with (cy - cy') by rring end]; auto.
Qed.

(** ** Evaluating the model *)
Lemma Pn : forall x y : R, Point_new (A := RA) x y = @mkpt RA (Rround8 x) (Rround8 y).
Proof. reflexivity. Qed.
Lemma stored_Pn : forall x y : R, stored (Point_new (A := RA) x y).
Proof. intros. apply stored_grid, Point_new_grid. Qed.

Lemma acos_half : forall k, acos (cos (rad (half_angle k))) * (180 / PI) = half_angle k.
Proof.
  intros k. pose proof PI_RGT_0 as P0. pose proof (half_range k) as HR. assert (0 <= rad (half_angle k) <= PI) by (unfold rad; nra).
  rewrite acos_cos by auto. unfold rad. field. lra.
Qed.

Lemma head_eval : forall k (pos_v pos_h d h1 : R) up, 1 / 100 <= d ->
  let a := half_angle k in let c := d / 2 - knuckle k d in
  head_segments (A := RA) k pos_v pos_h d h1 up =
  (kal <- arc_piece (Point_new (A := RA) 0 (h1 - depth k d)) (crown k d) (90 - a) (90 + a) 8 ;;
   kre_re <- arc_piece (Point_new (A := RA) c h1) (knuckle k d) 0 (90 - a) 3 ;;
   kre_li <- arc_piece (Point_new (A := RA) (- c) h1) (knuckle k d) (90 + a) 180 3 ;;
   let l := move_pt (A := RA) pos_h pos_v (Point_new (A := RA) (- d / 2) 0) in
   let r := move_pt (A := RA) pos_h pos_v (Point_new (A := RA) (d / 2) 0) in
   let pl := place (A := RA) up pos_h pos_v in
   Ok (glue [pl (wall_piece (Point_new (A := RA) (d / 2) 0) (Point_new (A := RA) (d / 2) h1)); pl kre_re; pl kal; pl kre_li;
             pl (wall_piece (Point_new (A := RA) (- d / 2) h1) (Point_new (A := RA) (- d / 2) 0)); if up then nonwall_piece l r else nonwall_piece r l])).
Proof.
  intros k pos_v pos_h d h1 up D a c. destruct (basics k d D) as (HA & S1 & C1 & SC & B1 & B2 & B3 & E1 & E2).
  assert (EC : R_crown (A := RA) k d = crown k d) by (unfold R_crown, crown, n1, ndec; destruct k; rfield).
  assert (EK : R_knuckle (A := RA) k d = knuckle k d) by (unfold R_knuckle, knuckle, ndec; destruct k; rfield).
  unfold head_segments. rewrite EC, EK. cbv zeta. unfold ndegrees, nradians, sqr, n0, n1, n2. ra_simpl.
  fold a in HA, S1, C1, SC, E1, E2. 
  assert (ED : sqrt ((crown k d - knuckle k d) * (crown k d - knuckle k d) - (d / 2 - knuckle k d) * (d / 2 - knuckle k d)) = depth k d) by (unfold depth; f_equal; ring).
  assert (RP : Rltb ((crown k d - knuckle k d) * (crown k d - knuckle k d) - (d / 2 - knuckle k d) * (d / 2 - knuckle k d)) 0 = false).
  { apply Rltb_false. rewrite E1. assert (0 < crown k d - knuckle k d) by lra.
    replace ((crown k d - knuckle k d) * (crown k d - knuckle k d) - (crown k d - knuckle k d) * sin (rad a) * ((crown k d - knuckle k d) * sin (rad a)))
      with ((crown k d - knuckle k d) ^ 2 * (1 - sin (rad a) ^ 2)) by ring.
    replace (1 - sin (rad a) ^ 2) with (cos (rad a) ^ 2) by lra. apply Rmult_le_pos; apply pow2_ge_0. }
  rewrite RP, ED.
  assert (EQ : pdiv (A := RA) (depth k d) (crown k d - knuckle k d) = Ok (cos (rad a))).
  { unfold pdiv, n0. ra_simpl. rewrite (proj2 (Reqb_false _ _)) by lra. f_equal. rewrite E2. field. lra. }
  rewrite EQ. cbn [bind].
  rewrite (proj2 (Rltb_false (cos (rad a)) (- (1)))) by lra. rewrite (proj2 (Rltb_false 1 (cos (rad a)))) by lra. cbn [orb].
  pose proof (acos_half k) as AH. fold a in AH. rewrite !AH.
  replace (a * (PI / 180)) with (rad a) by (unfold rad; field).
  replace (h1 - depth k d + (crown k d - knuckle k d) * cos (rad a)) with h1 by lra.
  replace (0 + (crown k d - knuckle k d) * sin (rad a)) with c by (unfold c; lra).
  reflexivity.
Qed.

Lemma place_view : forall up u v (x : piece (A := RA)), sound (fst x) (snd x) -> all_stored (fst x) (hsegs (snd x)) -> decimal8 u -> decimal8 v ->
  view (fst (place up u v x)) (hsegs (snd (place up u v x))) = map (seg_image (placed up u v)) (view (fst x) (hsegs (snd x))).
Proof.
  intros up u v [h P] SO ST U V. pose proof (place_spec up u v h P SO ST U V) as Q. destruct (place (A := RA) up u v (h, P)) as [h' P']. exact Q.
Qed.

Lemma round_within : forall x y : R, within (4 / 10^8) (Point_new (A := RA) x y) (@mkpt RA x y).
Proof.
  intros x y. rewrite Pn. pose proof (Rround8_err x). pose proof (Rround8_err y). split; cbn [px py]; ra_simpl; lra.
Qed.

Lemma knuckle_piece : forall k (d cx h1 b t : R), 1 / 100 <= d -> t = 90 - half_angle k -> 0 <= b < 360 -> b + t <= 360 ->
  exists h P vs, arc_piece (Point_new (A := RA) cx h1) (knuckle k d) b (b + t) 3 = Ok (h, P) /\ sound h P /\ all_stored h (hsegs P) /\
    Forall2 (within (4 / 10^8)) vs (map (fun j => circle_pt cx h1 (knuckle k d) (b + INR j * t / 3)) (seq 0 4)) /\ view h (hsegs P) = walls vs.
Proof.
  intros k d cx h1 b t D -> B BT. destruct (basics k d D) as (HA & S1 & C1 & SC & B1 & B2 & B3 & E1 & E2).
  pose proof (knuckle_chord k d D) as KC.
  destruct (arc_piece_spec (Point_new (A := RA) cx h1) (knuckle k d) b (b + (90 - half_angle k)) 3) as (h & P & vs & E & SO & ST & LV & W & V); try lra; try lia.
  - apply stored_Pn.
  - replace (b + (90 - half_angle k) - b) with (90 - half_angle k) by ring. exact KC.
  - exists h, P, vs. split; [exact E|]. split; [exact SO|]. split; [exact ST|]. split; [|exact V].
    apply Forall2_ideal; [exact LV|]. intros j p Hj. specialize (W j p Hj). rewrite Nat.add_0_l.
    replace (b + INR j * (b + (90 - half_angle k) - b) / INR 3) with (b + INR j * (90 - half_angle k) / 3) in W by (simpl; field).
    eapply within_mono; [|eapply within_trans; [exact W|]].
    2: { apply (circle_within (5 / 1000000000)); rewrite Pn; cbn [px py]; apply Rround8_err. }
    lra.
Qed.

Lemma crown_piece : forall k (d h1 : R), 1 / 100 <= d -> let a := half_angle k in
  exists h P vs, arc_piece (Point_new (A := RA) 0 (h1 - depth k d)) (crown k d) (90 - a) (90 + a) 8 = Ok (h, P) /\ sound h P /\ all_stored h (hsegs P) /\
    Forall2 (within (4 / 10^8)) vs (map (fun j => circle_pt 0 (h1 - depth k d) (crown k d) (90 - a + INR j * (2 * a) / 8)) (seq 0 9)) /\ view h (hsegs P) = walls vs.
Proof.
  intros k d h1 D a. destruct (basics k d D) as (HA & S1 & C1 & SC & B1 & B2 & B3 & E1 & E2). fold a in HA.
  pose proof (crown_chord k d D) as KC. fold a in KC.
  destruct (arc_piece_spec (Point_new (A := RA) 0 (h1 - depth k d)) (crown k d) (90 - a) (90 + a) 8) as (h & P & vs & E & SO & ST & LV & W & V); try lra; try lia.
  - apply stored_Pn.
  - replace (90 + a - (90 - a)) with (2 * a) by ring. exact KC.
  - exists h, P, vs. split; [exact E|]. split; [exact SO|]. split; [exact ST|]. split; [|exact V].
    apply Forall2_ideal; [exact LV|]. intros j p Hj. specialize (W j p Hj). rewrite Nat.add_0_l.
    replace (90 - a + INR j * (90 + a - (90 - a)) / INR 8) with (90 - a + INR j * (2 * a) / 8) in W by (simpl; field).
    eapply within_mono; [|eapply within_trans; [exact W|]].
    2: { apply (circle_within (5 / 1000000000)); rewrite Pn; cbn [px py]; apply Rround8_err. }
    lra.
Qed.

Lemma head_near : forall k (pos_v pos_h d h1 : R) up, decimal8 pos_v -> decimal8 pos_h -> 1 / 100 <= d -> 2 / 10^5 <= h1 ->
  exists h l, head_segments (A := RA) k pos_v pos_h d h1 up = Ok (h, mkhp l false) /\
    Forall2 (near (4 / 10^8)) (view h l) (cycle_edges (map (placed up pos_h pos_v) (outline k d h1))) /\ some_coincide h l /\
    map (@sc RA) (view h l) = repeat CWall 16 ++ [CNonWall].
Proof.
  intros k pos_v pos_h d h1 up PV PH D H1. destruct (basics k d D) as (HA & S1 & C1 & SC & B1 & B2 & B3 & E1 & E2).
  rewrite head_eval by exact D. cbv zeta. set (a := half_angle k) in *. set (c := d / 2 - knuckle k d) in *.
  destruct (crown_piece k d h1 D) as (hc & Pc & vc & Ec & SOc & STc & Wc & Vc). fold a in Ec, Wc. rewrite Ec. clear Ec.
  destruct (knuckle_piece k d c h1 0 (90 - a) D eq_refl ltac:(lra) ltac:(lra)) as (hr & Pr & vr & Er & SOr & STr & Wr & Vr). rewrite Rplus_0_l in Er. rewrite Er. clear Er.
  destruct (knuckle_piece k d (- c) h1 (90 + a) (90 - a) D eq_refl ltac:(lra) ltac:(lra)) as (hl & Pl & vl & El & SOl & STl & Wl & Vl).
  replace (90 + a + (90 - a)) with 180 in El by ring. rewrite El. clear El. cbn [bind].
  set (T := placed up pos_h pos_v).
  set (P1 := Point_new (A := RA) (d / 2) 0). set (P2 := Point_new (A := RA) (d / 2) h1).
  set (P3 := Point_new (A := RA) (- d / 2) h1). set (P4 := Point_new (A := RA) (- d / 2) 0).
  assert (S1' : stored P1 /\ stored P2 /\ stored P3 /\ stored P4) by (repeat split; apply stored_Pn). destruct S1' as (ST1 & ST2 & ST3 & ST4).
  assert (Y : 1 / 10^5 <= Rround8 h1 - Rround8 0) by (apply round_far; lra).
  assert (F12 : 1 / 10^5 <= Rabs (px P1 - px P2) \/ 1 / 10^5 <= Rabs (py P1 - py P2)).
  { right. unfold P1, P2. rewrite !Pn. cbn [py]. rewrite Rabs_minus_sym. pose proof (Rle_abs (Rround8 h1 - Rround8 0)). lra. }
  assert (F34 : 1 / 10^5 <= Rabs (px P3 - px P4) \/ 1 / 10^5 <= Rabs (py P3 - py P4)).
  { right. unfold P3, P4. rewrite !Pn. cbn [py]. pose proof (Rle_abs (Rround8 h1 - Rround8 0)). lra. }
  pose proof (wall_piece_spec P1 P2 ST1 ST2 F12) as (SOa & STa & Va).
  pose proof (wall_piece_spec P3 P4 ST3 ST4 F34) as (SOb & STb & Vb).
  pose proof (place_view up pos_h pos_v (wall_piece P1 P2) SOa STa PH PV) as VA.
  pose proof (place_view up pos_h pos_v (wall_piece P3 P4) SOb STb PH PV) as VB.
  pose proof (place_view up pos_h pos_v (hr, Pr) SOr STr PH PV) as VR.
  pose proof (place_view up pos_h pos_v (hc, Pc) SOc STc PH PV) as VC.
  pose proof (place_view up pos_h pos_v (hl, Pl) SOl STl PH PV) as VL.
  cbn [fst snd] in VR, VC, VL. rewrite Vr in VR. rewrite Vc in VC. rewrite Vl in VL.
  change (view (fst (wall_piece P1 P2)) (hsegs (snd (wall_piece P1 P2)))) with (walls [P1; P2]) in VA.
  change (view (fst (wall_piece P3 P4)) (hsegs (snd (wall_piece P3 P4)))) with (walls [P3; P4]) in VB.
  fold T in VA, VB, VR, VC, VL.
  set (rn := if up then _ else _).
  assert (VN : view (fst rn) (hsegs (snd rn)) = [@mkseg RA CNonWall (T P4) (T P1)]).
  { assert (M : P4 = @mkpt RA (- px P1) (- py P1) /\ P1 = @mkpt RA (- px P4) (- py P4)).
    { unfold P1, P4. rewrite !Pn. cbn [px py]. replace (- d / 2) with (- (d / 2)) by field. rewrite Rround8_opp, (Rround8_id 0) by (exists 0%Z; lra). split; f_equal; ra_simpl; lra. }
    destruct M as [M1 M2].
    unfold rn. destruct up; rewrite !move_pt_exact by auto; unfold T, placed.
    - reflexivity.
    - rewrite <- M1, <- M2. reflexivity. }
  pose proof (glue_view [place (A := RA) up pos_h pos_v (wall_piece P1 P2); place (A := RA) up pos_h pos_v (hr, Pr); place (A := RA) up pos_h pos_v (hc, Pc); place (A := RA) up pos_h pos_v (hl, Pl); place (A := RA) up pos_h pos_v (wall_piece P3 P4); rn]) as GV.
  cbn [flat_map] in GV. rewrite VA, VB, VR, VC, VL, VN in GV.
  match type of GV with view (fst ?g) _ = _ => set (G := g) in *; assert (EG : G = (fst G, mkhp (hsegs (snd G)) false)) by reflexivity end.
  exists (fst G), (hsegs (snd G)). split; [rewrite <- EG; reflexivity|]. rewrite GV.
  assert (LR : length vr = 4%nat) by (apply Forall2_length in Wr; rewrite map_length, seq_length in Wr; exact Wr).
  assert (LC : length vc = 9%nat) by (apply Forall2_length in Wc; rewrite map_length, seq_length in Wc; exact Wc).
  assert (LL : length vl = 4%nat) by (apply Forall2_length in Wl; rewrite map_length, seq_length in Wl; exact Wl).
  split; [|split].
  - assert (TW : forall p q, within (4 / 10^8) p q -> within (4 / 10^8) (T p) (T q)) by (intros; apply placed_within; auto).
    rewrite cycle_edges_map. unfold outline. fold a. fold c.
    pose proof (outline_cycle (@mkpt RA (d / 2) 0) (@mkpt RA (- (d / 2)) 0) (fun j => circle_pt c h1 (knuckle k d) (INR j * (90 - a) / 3))
      (fun j => circle_pt 0 (h1 - depth k d) (crown k d) (90 - a + INR j * (2 * a) / 8)) (fun j => circle_pt (- c) h1 (knuckle k d) (90 + a + INR j * (90 - a) / 3))
      (join_right k d h1 D) (join_left k d h1 D)) as OC. cbv beta in OC. rewrite OC. clear OC.
    unfold c, a. rewrite (Kr_first k d h1), (Kl_last k d h1). fold a. fold c.
    rewrite !map_app. rewrite app_nil_r.
    repeat apply Forall2_app.
    + apply piece_near; auto. (constructor; [apply round_within|constructor; [apply round_within|constructor]]).
    + apply piece_near; auto. rewrite (map_ext _ (fun j => circle_pt c h1 (knuckle k d) (INR j * (90 - a) / 3))) in Wr by (intros j; f_equal; ring). exact Wr.
    + apply piece_near; auto.
    + apply piece_near; auto.
    + apply piece_near; auto. unfold P3, P4. replace (- d / 2) with (- (d / 2)) by field. (constructor; [apply round_within|constructor; [apply round_within|constructor]]).
    + constructor; [|constructor]. split; cbn [si sj fst snd]; apply TW; [unfold P4; replace (- d / 2) with (- (d / 2)) by field|]; apply round_within.
  - destruct vr as [|r0 [|r1 [|r2 [|r3 [|]]]]]; try discriminate LR. destruct vl as [|l0 [|l1 [|l2 [|l3 [|]]]]]; try discriminate LL.
    destruct vc as [|c0 [|c1 [|c2 [|c3 [|c4 [|c5 [|c6 [|c7 [|c8 [|]]]]]]]]]]; try discriminate LC.
    apply (coincide_view (fst G) (hsegs (snd G)) 0 33 (T P1)); [lia| |]; rewrite GV; reflexivity.
  - destruct vr as [|r0 [|r1 [|r2 [|r3 [|]]]]]; try discriminate LR. destruct vl as [|l0 [|l1 [|l2 [|l3 [|]]]]]; try discriminate LL.
    destruct vc as [|c0 [|c1 [|c2 [|c3 [|c4 [|c5 [|c6 [|c7 [|c8 [|]]]]]]]]]]; try discriminate LC.
    reflexivity.
Qed.

Lemma cycle_closed : forall (l : list (seg RA)) ws, ws <> [] -> map (fun s => (si s, sj s)) l = cycle_edges ws -> isclosed l = Ok true.
Proof.
  intros l ws NE E. assert (LN : length l = length ws) by (rewrite <- (cycle_edges_length _ ws), <- E, map_length; reflexivity).
  assert (N : forall k s, nth_error l k = Some s -> nth_error ws k = Some (si s) /\ nth_error ws (if Nat.eqb (S k) (length ws) then 0 else S k)%nat = Some (sj s)).
  { intros k s K. apply (map_nth_error (fun s => (si s, sj s))) in K. rewrite E in K. apply cycle_edges_nth in K. exact K. }
  assert (L0 : (0 < length l)%nat) by (rewrite LN; destruct ws; [congruence|simpl; lia]).
  destruct (nth_error l 0) as [s|] eqn:E0; [|apply nth_error_None in E0; lia].
  destruct (nth_error l (length l - 1)) as [t|] eqn:E1; [|apply nth_error_None in E1; lia].
  apply (isclosed_cont l s t); auto.
  - apply iscontinuous_iff. intros k x y Hx Hy. apply continuous_same.
    apply N in Hx as [_ Hx]. assert (S k < length l)%nat by (apply nth_error_Some; congruence). apply N in Hy as [Hy _].
    rewrite (proj2 (Nat.eqb_neq (S k) (length ws))) in Hx by lia. congruence.
  - destruct (exists_last (l := l)) as (l' & z & ->); [intros ->; simpl in L0; lia|]. rewrite app_length in E1. simpl in E1. replace (length l' + 1 - 1)%nat with (length l') in E1 by lia.
    rewrite nth_error_app2, Nat.sub_diag in E1 by lia. injection E1 as ->.
    destruct l' as [|q l']; [reflexivity|]. unfold last_opt. simpl. f_equal. apply last_last.
  - apply N in E0 as [E0 _]. apply N in E1 as [_ E1]. rewrite (proj2 (Nat.eqb_eq _ _)) in E1 by lia. congruence.
Qed.

(*@ C54_shape *)
(** A head is a closed outline of 16 walls and one opening; its vertices are, within 4e-8, those of the ideal torispherical
    outline at the requested place; coinciding corners are one Point object. *)
Lemma head_spec : forall k (pos_v pos_h d h1 : R) up, decimal8 pos_v -> decimal8 pos_h -> 1 / 100 <= d -> 2 / 10^5 <= h1 ->
  exists h P ws, head_part (A := RA) k pos_v pos_h d h1 up = Ok (h, P) /\
    Forall2 (within (4 / 10^8)) ws (map (placed up pos_h pos_v) (outline k d h1)) /\
    map (fun s => (si s, sj s)) (view h (hsegs P)) = cycle_edges ws /\
    map (@sc RA) (view h (hsegs P)) = repeat CWall 16 ++ [CNonWall] /\
    isclosed (view h (hsegs P)) = Ok true /\ one_object_per_place h (hsegs P).
Proof.
  intros k pos_v pos_h d h1 up PV PH D H1.
  destruct (head_near k pos_v pos_h d h1 up PV PH D H1) as (h & l & E & F & SC & CL).
  assert (FO : ForallOrdPairs far (map (placed up pos_h pos_v) (outline k d h1))).
  { apply (FOP_map _ _ far far); [intros; apply placed_far; auto|]. apply outline_far; auto. }
  destruct (near_cycle h l (map (placed up pos_h pos_v) (outline k d h1)) ltac:(rewrite map_length; simpl; lia) FO SC F) as (ws & W & V & C & _ & O).
  exists h, (purge h (mkhp l false)), ws. unfold head_part. rewrite E. cbn [bind].
  split; [reflexivity|]. split; [exact W|]. split; [exact V|]. split; [rewrite C; exact CL|]. split; [|exact O].
  apply (cycle_closed _ ws); [|exact V]. intros ->. inversion W.
Qed.

(** The outline stays within the diameter and between the opening and the apex. *)
Lemma outline_extent : forall k (d h1 : R), 1 / 100 <= d -> 2 / 10^5 <= h1 -> forall p, In p (outline k d h1) ->
  - (d / 2) <= px p <= d / 2 /\ 0 <= py p <= h1 + (crown k d - depth k d).
Proof.
  intros k d h1 D H1 p I. destruct (basics k d D) as (HA & S1 & C1 & SC & B1 & B2 & B3 & E1 & E2).
  assert (CB : forall cx cy r t, 0 < r -> cx - r <= px (circle_pt cx cy r t) <= cx + r /\ py (circle_pt cx cy r t) <= cy + r).
  { intros cx cy r t R0. unfold circle_pt. cbn [px py]. pose proof (COS_bound (t * PI / 180)). pose proof (SIN_bound (t * PI / 180)). ra_simpl. split; [split|]; nra. }
  assert (TOP : knuckle k d <= crown k d - depth k d) by (rewrite E2; nra).
  assert (SA : crown k d * sin (rad (half_angle k)) <= d / 2) by nra.
  assert (SA0 : 0 <= crown k d * sin (rad (half_angle k))) by nra.
  unfold outline in I. apply in_app_iff in I as [[<-|[]]|I]; [cbn [px py]; lra|].
  apply in_app_iff in I as [I|I]; [|apply in_app_iff in I as [I|I]; [|apply in_app_iff in I as [I|[<-|[]]]; [|cbn [px py]; lra]]];
    apply in_map_iff in I as (j & <- & I); apply in_seq in I.
  - destruct (Kr_at k d h1 D j ltac:(lia)). destruct (CB (d / 2 - knuckle k d) h1 (knuckle k d) (INR j * (90 - half_angle k) / 3) B1). lra.
  - destruct (Cr_at k d h1 D j ltac:(lia)) as [X Y]. apply Rabs_le_inv in X. pose proof (crown_gap k d D).
    destruct (CB 0 (h1 - depth k d) (crown k d) (90 - half_angle k + INR j * (2 * half_angle k) / 8) ltac:(lra)). lra.
  - destruct (Kl_at k d h1 D j ltac:(lia)). destruct (CB (- (d / 2 - knuckle k d)) h1 (knuckle k d) (90 + half_angle k + INR j * (90 - half_angle k) / 3) B1). lra.
Qed.

Lemma Forall2_In_l : forall X Y (P : X -> Y -> Prop) l m x, Forall2 P l m -> In x l -> exists y, In y m /\ P x y.
Proof. intros X Y P l m x F. induction F; intros []; [subst; eexists; split; [left; reflexivity|auto]|]. destruct (IHF H0) as (z & A & B). exists z. split; [right; auto|auto]. Qed.

(*@ C54_extent *)
(** The part reaches from the opening exactly to the crown height, and is exactly as wide as the diameter (up to 4e-8). *)
Lemma head_extent : forall k (pos_v pos_h d h1 : R) up, decimal8 pos_v -> decimal8 pos_h -> 1 / 100 <= d -> 2 / 10^5 <= h1 ->
  exists h P, head_part (A := RA) k pos_v pos_h d h1 up = Ok (h, P) /\
    (forall s p, In s (view h (hsegs P)) -> (p = si s \/ p = sj s) ->
      Rabs (px p - pos_h) <= d / 2 + 4 / 10^8 /\
      - (4 / 10^8) <= (if up then py p - pos_v else pos_v - py p) <= h1 + (crown k d - depth k d) + 4 / 10^8) /\
    (exists s, In s (view h (hsegs P)) /\ within (4 / 10^8) (si s) (placed up pos_h pos_v (@mkpt RA (d / 2) 0))) /\
    (exists s, In s (view h (hsegs P)) /\ within (4 / 10^8) (si s) (placed up pos_h pos_v (@mkpt RA (- (d / 2)) 0))) /\
    (exists s, In s (view h (hsegs P)) /\ within (4 / 10^8) (si s) (placed up pos_h pos_v (@mkpt RA 0 (h1 + (crown k d - depth k d))))).
Proof.
  intros k pos_v pos_h d h1 up PV PH D H1. destruct (head_spec k pos_v pos_h d h1 up PV PH D H1) as (h & P & ws & E & W & V & _).
  exists h, P. split; [exact E|].
  assert (AT : forall i v, nth_error (outline k d h1) i = Some v -> exists s, In s (view h (hsegs P)) /\ within (4 / 10^8) (si s) (placed up pos_h pos_v v)).
  { intros i v Hi. apply (map_nth_error (placed up pos_h pos_v)) in Hi.
    assert (Li : (i < length ws)%nat) by (rewrite (Forall2_length _ _ _ _ _ W); apply nth_error_Some; rewrite Hi; discriminate).
    destruct (nth_error ws i) as [w|] eqn:Ew; [|apply nth_error_None in Ew; lia].
    pose proof (Forall2_nth _ _ _ _ _ _ _ _ W Ew Hi) as Q.
    assert (LV : length (view h (hsegs P)) = length ws) by (rewrite <- (cycle_edges_length _ ws), <- V, map_length; reflexivity).
    destruct (nth_error (view h (hsegs P)) i) as [s|] eqn:Es; [|apply nth_error_None in Es; lia].
    exists s. split; [eapply nth_error_In; eauto|]. pose proof (map_nth_error (fun s => (si s, sj s)) _ _ Es) as M. rewrite V in M. apply cycle_edges_nth in M as [M _].
    rewrite M in Ew. injection Ew as ->. exact Q. }
  split; [|split; [|split]].
  - intros s p Is Hp.
    assert (Iw : In p ws).
    { apply In_nth_error in Is as [i Is]. apply (map_nth_error (fun s => (si s, sj s))) in Is. rewrite V in Is. apply cycle_edges_nth in Is as [I1 I2].
      destruct Hp as [-> | ->]; eapply nth_error_In; eauto. }
    destruct (Forall2_In_l _ _ _ _ _ _ W Iw) as (q & Iq & [Q1 Q2]). apply in_map_iff in Iq as (v & <- & Iv).
    destruct (outline_extent k d h1 D H1 v Iv) as [X Y]. apply Rabs_le_inv in Q1, Q2. unfold placed, translate in *.
    destruct up; cbn [px py] in *; revert Q1 Q2; ra_simpl; intros Q1 Q2; (split; [apply Rabs_le|]); lra.
  - apply (AT 0%nat). reflexivity.
  - apply (AT 16%nat). reflexivity.
  - apply (AT 8%nat). cbn [outline]. unfold outline. cbn [app map seq nth_error]. f_equal. unfold circle_pt.
    replace ((90 - half_angle k + INR 4 * (2 * half_angle k) / 8) * PI / 180) with (PI / 2) by (simpl; field). rewrite cos_PI2, sin_PI2. f_equal; rring.
Qed.

(*@ C54_tangent *)
(** Crown and knuckle meet in one point, seen from both centres under the same angle (the normals agree, no kink), on the right
    and on the left; the knuckles end vertically on the cylinder. *)
Lemma head_tangent : forall k (d h1 : R), 1 / 100 <= d -> let a := half_angle k in let c := d / 2 - knuckle k d in
  circle_pt 0 (h1 - depth k d) (crown k d) (90 - a) = circle_pt c h1 (knuckle k d) (90 - a) /\
  circle_pt 0 (h1 - depth k d) (crown k d) (90 + a) = circle_pt (- c) h1 (knuckle k d) (90 + a) /\
  circle_pt c h1 (knuckle k d) 0 = @mkpt RA (d / 2) h1 /\ circle_pt (- c) h1 (knuckle k d) 180 = @mkpt RA (- (d / 2)) h1 /\ 0 < a < 90.
Proof.
  intros k d h1 D a c. pose proof (join_right k d h1 D) as JR. pose proof (join_left k d h1 D) as JL. pose proof (Kr_first k d h1) as KF. pose proof (Kl_last k d h1) as KL.
  fold a in JR, JL, KF, KL. fold c in JR, JL, KF, KL.
  replace (90 - a + INR 0 * (2 * a) / 8) with (90 - a) in JR by (simpl; field). replace (INR 3 * (90 - a) / 3) with (90 - a) in JR by (simpl; field).
  replace (90 - a + INR 8 * (2 * a) / 8) with (90 + a) in JL by (simpl; field). replace (90 + a + INR 0 * (90 - a) / 3) with (90 + a) in JL by (simpl; field).
  replace (INR 0 * (90 - a) / 3) with 0 in KF by (simpl; field). replace (90 + a + INR 3 * (90 - a) / 3) with 180 in KL by (simpl; field).
  repeat split; auto; apply half_range.
Qed.

(*@ C54_flat_refuted *)
(** Without a cylindrical part (h1 = 0) the two ends of that piece coincide, and placing the head moves only one of them:
    the wall piece is torn from its neighbours. *)
Lemma head_flat : forall (p : pt RA) (u v : R), stored p -> decimal8 u -> decimal8 v ->
  let '(h, P) := place (A := RA) true u v (wall_piece p p) in
  view h (hsegs P) = [@mkseg RA CWall (translate u v p) p].
Proof.
  intros p u v ST U V. rewrite <- (move_pt_exact u v p) by auto.
  assert (L : lex_ltb p p = false).
  { unfold lex_ltb. ra_simpl. rewrite Reqb_refl. apply Rltb_false. lra. }
  assert (SM : pt_sameb p p = true) by apply pt_sameb_refl.
  assert (Q : pt_eqb p p = true) by apply pt_eqb_refl.
  set (h := halloc (fun _ => p) 0 [p; p]). assert (H0 : h 0%nat = p) by reflexivity. assert (H1 : h 1%nat = p) by reflexivity.
  assert (HA : hall_points h [mkh CWall 0 1] = [0%nat; 1%nat]) by (unfold hall_points; cbn; rewrite L; reflexivity).
  assert (PS : hpoint_set h [mkh CWall 0 1] = [0%nat]) by (unfold hpoint_set; rewrite HA; cbn; rewrite SM; reflexivity).
  assert (PU : hsegs (purge h (mkhp [mkh CWall 0 1] false)) = [mkh CWall 0 1]).
  { unfold purge. cbn [hpurged hsegs]. rewrite HA, PS. cbn [length Nat.eqb fold_left purge_step filter app].
    rewrite H0, H1, Q. cbn [purge_pass existsb hij hi hj hc snd hsegs]. rewrite H0, H1, Q. reflexivity. }
  change (wall_piece p p) with (h, mkhp [mkh CWall 0 1] false). unfold place, move, transform. rewrite PU, PS. reflexivity.
Qed.

(*@ex C54_example *)
(** A Klopperboden of diameter 2 with a cylindrical part of 0.1, hanging at height 0.5: all premises hold, and the lowest
    point is at 0.5 - 0.1 - (2 - sqrt (1.8^2 - 0.8^2)). *)
Example head_example : exists h P, head_part (A := RA) Klopper (1 / 2) 0 2 (1 / 10) false = Ok (h, P) /\
  exists s, In s (view h (hsegs P)) /\ Rabs (py (si s) - (4 / 10 - (2 - sqrt (26 / 10)))) <= 4 / 10^8.
Proof.
  assert (D1 : decimal8 (1 / 2)) by (exists 50000000%Z; lra). assert (D0 : decimal8 0) by (exists 0%Z; lra).
  destruct (head_extent Klopper (1 / 2) 0 2 (1 / 10) false D1 D0 ltac:(lra) ltac:(lra)) as (h & P & E & _ & _ & _ & s & I & W & Y).
  exists h, P. split; [exact E|]. exists s. split; [exact I|]. revert Y. unfold placed, translate. cbn [px py crown]. unfold depth. cbn [crown knuckle].
  replace ((2 - 2 / 10) ^ 2 - (2 / 2 - 2 / 10) ^ 2) with (26 / 10) by field. ra_simpl. intros Y.
  match type of Y with Rabs ?x <= _ => match goal with |- Rabs ?y <= _ => replace y with x by lra end end. exact Y.
Qed.
