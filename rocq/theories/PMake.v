(** Constructors of polygons: square and arc. *)
From Coq Require Import Reals ZArith Lra Lia Bool List Psatz Permutation Arith.
From Coq Require Import SpecFloat.
From Verif Require Import Base Arith ArithR ArithF MPoint MLine MPoly MHeap Spec SpecHeap PPoint PLine PTrig PPoly PShape PConvex PTri POrder PHeap.
Import ListNotations.
#[local] Existing Instance RA.

(** * C41 *)
Lemma halloc_nth : forall (h : heap RA) base ps k p, nth_error ps k = Some p -> halloc h base ps (base + k) = p.
Proof.
  intros h base ps k p E. unfold halloc. destruct (Nat.leb_spec base (base + k)); [|lia].
  replace (base + k - base)%nat with k by lia. apply nth_error_nth. exact E.
Qed.
Lemma halloc_out : forall (h : heap RA) base ps o, (o < base \/ base + length ps <= o)%nat -> halloc h base ps o = h o.
Proof.
  intros h base ps o H. unfold halloc. destruct (Nat.leb_spec base o); auto. apply nth_overflow. lia.
Qed.

Lemma five_closed : forall (h : heap RA) base (n0 n1 n2 n3 n4 : R * R) (q0 q1 q2 q3 q4 : pt RA) u v,
  let mk (n : R * R) := Point_new (A := RA) (fst n) (snd n) in
  mk n0 = q0 -> mk n1 = q1 -> mk n2 = q2 -> mk n3 = q3 -> mk n4 = q4 ->
  separated [q0; q1; q2; q3; q4] -> NoDup [q0; q1; q2; q3; q4] -> decimal8 u -> decimal8 v ->
  let '(h1, P1) := hpolygon_from_nodes (A := RA) h base [n0; n1; n2; n3; n4] false in
  exists P2, hclose h1 P1 = Ok P2 /\
  let '(h', P') := move (A := RA) u v h1 P2 in
  view h' (hsegs P') = cycle_poly (map (translate u v) [q0; q1; q2; q3; q4]) /\
  (forall o, (o < base \/ base + 5 <= o)%nat -> h' o = h o) /\ sound h' P' /\ all_stored h' (hsegs P').
Proof.
  intros h base n0 n1 n2 n3 n4 q0 q1 q2 q3 q4 u v mk E0 E1 E2 E3 E4 SP ND U V.
  assert (ST : stored q0 /\ stored q1 /\ stored q2 /\ stored q3 /\ stored q4).
  { rewrite <- E0, <- E1, <- E2, <- E3, <- E4. repeat split; apply stored_grid, Point_new_grid. }
  unfold hpolygon_from_nodes. cbn [map length seq pairs].
  set (ps := [_; _; _; _; _]).
  assert (PS : ps = [q0; q1; q2; q3; q4]).
  { unfold ps. destruct n0, n1, n2, n3, n4. rewrite <- E0, <- E1, <- E2, <- E3, <- E4. reflexivity. }
  rewrite PS. clear ps PS. set (h1 := halloc h base _).
  assert (H0 : h1 base = q0) by (rewrite <- (Nat.add_0_r base) at 1; apply halloc_nth; reflexivity).
  assert (H1 : h1 (S base) = q1) by (rewrite <- (Nat.add_1_r base) at 1; apply halloc_nth; reflexivity).
  assert (H2 : h1 (S (S base)) = q2) by (replace (S (S base)) with (base + 2)%nat by lia; apply halloc_nth; reflexivity).
  assert (H3 : h1 (S (S (S base))) = q3) by (replace (S (S (S base))) with (base + 3)%nat by lia; apply halloc_nth; reflexivity).
  assert (H4 : h1 (S (S (S (S base)))) = q4) by (replace (S (S (S (S base)))) with (base + 4)%nat by lia; apply halloc_nth; reflexivity).
  set (P1 := mkhp _ _).
  set (P2 := mkhp (hsegs P1 ++ [mkh CLineSegment (S (S (S (S base)))) base]) false).
  exists P2. split.
  - unfold hclose, isopen, isclosed.
    assert (C : iscontinuous (view h1 (hsegs P1)) = true).
    { unfold iscontinuous. simpl. rewrite !continuous_same by reflexivity. reflexivity. }
    rewrite C. cbn. rewrite H4, H0.
    assert (N : pt_eqb q0 q4 = false).
    { destruct (pt_eqb q0 q4) eqn:Q; auto. exfalso. apply (separated_eqb _ SP) in Q; simpl; [|tauto|tauto]. rewrite Q in ND.
      inversion ND as [|? ? X _]. apply X. simpl; tauto. }
    rewrite N. reflexivity.
  - assert (OB : objects (hsegs P2) = [base; S base; S base; S (S base); S (S base); S (S (S base)); S (S (S base)); S (S (S (S base))); S (S (S (S base))); base]) by reflexivity.
    assert (MO : map h1 (objects (hsegs P2)) = [q0; q1; q1; q2; q2; q3; q3; q4; q4; q0]) by (rewrite OB; simpl; rewrite H0, H1, H2, H3, H4; reflexivity).
    assert (S1 : sound h1 P2).
    { split; [|split; [|discriminate]].
      - rewrite MO. intros p q Ip Iq. apply SP; simpl in *; tauto.
      - intros s Is. simpl in Is. inversion ND as [|? ? X0 ND1]; inversion ND1 as [|? ? X1 ND2]; inversion ND2 as [|? ? X2 ND3]; inversion ND3 as [|? ? X3 ND4]; subst.
        simpl in X0, X1, X2, X3.
        destruct Is as [<-|[<-|[<-|[<-|[<-|[]]]]]]; simpl; rewrite ?H0, ?H1, ?H2, ?H3, ?H4; intros Q; rewrite Q in *; tauto. }
    assert (A1 : all_stored h1 (hsegs P2)).
    { intros o Io. assert (In (h1 o) [q0; q1; q1; q2; q2; q3; q3; q4; q4; q0]) as J by (rewrite <- MO; apply in_map; auto).
      simpl in J. destruct ST as (? & ? & ? & ? & ?). repeat (destruct J as [<-|J]; [assumption|]). destruct J. }
    pose proof (move_exact h1 P2 u v S1 A1 U V) as M. destruct (move (A := RA) u v h1 P2) as [h' P'].
    destruct M as (M1 & M2 & _ & _ & M3 & M4). split; [|split; auto].
    + rewrite M1. unfold P2. simpl. unfold view, cycle_poly. simpl. unfold seg_view, seg_translate. simpl. rewrite H0, H1, H2, H3, H4. reflexivity.
    + intros o Ho. rewrite M2; [apply halloc_out; auto|]. rewrite OB. simpl. lia.
Qed.

Lemma ip_hv : forall c c' (x1 x2 y x3 y3 y4 : R), on_grid x3 -> on_grid y ->
  let s := mkseg c (@mkpt RA x1 y) (@mkpt RA x2 y) in let t := mkseg c' (@mkpt RA x3 y3) (@mkpt RA x3 y4) in
  is_parallel s t = false -> intersection_point s t = Ok (Some (@mkpt RA x3 y)).
Proof.
  intros c c' x1 x2 y x3 y3 y4 G1 G2 s t EP. unfold intersection_point. rewrite EP.
  assert (ND : ((x1 - x2) * (y3 - y4) - (y - y) * (x3 - x3) <> 0)%R).
  { intros Z. assert (is_parallel s t = true); [|congruence]. apply is_parallel_iff. rewrite crossproduct_R. simpl. lra. }
  cbn [si sj px py s t]. unfold pdiv, n0. ra_simpl.
  assert (R : Reqb ((x1 - x2) * (y3 - y4) - (y - y) * (x3 - x3)) 0 = false).
  { destruct (Reqb _ _) eqn:E; auto. apply Reqb_true in E. contradiction. }
  rewrite !R. cbn [bind]. do 2 f_equal. rewrite <- (Point_new_id x3 y G1 G2). f_equal; toR; field; auto.
Qed.

Lemma ios_far : forall c c' (x1 x2 y x3 y3 y4 : R), on_grid x3 -> on_grid y -> (Rmax x1 x2 + 1/100000000 < x3 \/ x3 <= Rmin x1 x2 - 1/100000000)%R ->
  intersection_on_segment (mkseg c (@mkpt RA x1 y) (@mkpt RA x2 y)) (mkseg c' (@mkpt RA x3 y3) (@mkpt RA x3 y4)) = Ok false.
Proof.
  intros c c' x1 x2 y x3 y3 y4 G1 G2 F. set (s := mkseg c _ _). set (t := mkseg c' _ _).
  destruct (ios_sym s t) as (_ & _ & K & _).
  destruct (is_parallel s t) eqn:EP; [apply K; auto|]. destruct (touch s t) eqn:ET; [apply K; auto|].
  unfold intersection_on_segment. rewrite ET. unfold s at 1, t at 1. rewrite ip_hv by auto. cbn [bind].
  assert (I : ls_is_internal_point s (@mkpt RA x3 y) = false).
  { destruct (ls_is_internal_point s (@mkpt RA x3 y)) eqn:E; auto. apply internal_iff_R in E. simpl in E. lra. }
  rewrite I. reflexivity.
Qed.

Lemma box_shape : forall xl xm xr yb yt : R, on_grid xl -> on_grid xr -> on_grid yb ->
  (xl + 1/10^5 <= xm <= xr - 1/10^5)%R -> (yb < yt)%R ->
  let l := cycle_poly [@mkpt RA xm yb; @mkpt RA xr yb; @mkpt RA xr yt; @mkpt RA xl yt; @mkpt RA xl yb] in
  poly_isvalid l = Ok true /\ isconvex l = Ok true /\ (0 < fold_right Rplus 0 (turns l))%R.
Proof.
  intros xl xm xr yb yt GL GR GB HX HY l.
  assert (VA : poly_isvalid l = Ok true).
  { apply poly_isvalid_true. split; [discriminate|]. split.
    - unfold iscontinuous. simpl. rewrite !continuous_same by reflexivity. reflexivity.
    - assert (forall s t : seg RA, sj s = si t -> intersection_on_segment s t = Ok false /\ intersection_on_segment t s = Ok false) as T.
      { intros s t E. pose proof (touch_same s t E) as H. destruct (ios_sym s t) as (S1 & _ & K & _). rewrite <- S1, K by auto. auto. }
      assert (forall s t : seg RA, crossproduct s t = 0%R -> intersection_on_segment s t = Ok false /\ intersection_on_segment t s = Ok false) as Q.
      { intros s t E. destruct (ios_sym s t) as (S1 & _ & K & _). rewrite <- S1, K by (right; apply is_parallel_iff; auto). auto. }
      assert (FAR : forall c c' (x1 x2 y x3 y3 y4 : R), on_grid x3 -> on_grid y -> (Rmax x1 x2 + 1/100000000 < x3 \/ x3 <= Rmin x1 x2 - 1/100000000)%R ->
         let s := (mkseg c (@mkpt RA x1 y) (@mkpt RA x2 y)) in let t := (mkseg c' (@mkpt RA x3 y3) (@mkpt RA x3 y4)) in
         intersection_on_segment s t = Ok false /\ intersection_on_segment t s = Ok false).
      { intros. pose proof (ios_far c c' x1 x2 y x3 y3 y4 H H0 H1) as E. destruct (ios_sym s t) as (S1 & _). rewrite <- S1. auto. }
      assert (R1 : (Rmax xm xr + 1/100000000 < xl \/ xl <= Rmin xm xr - 1/100000000)%R) by (right; unfold Rmin; destruct (Rle_dec xm xr); lra).
      assert (R2 : (Rmax xl xm + 1/100000000 < xr \/ xr <= Rmin xl xm - 1/100000000)%R) by (left; unfold Rmax; destruct (Rle_dec xl xm); lra).
      pose proof (FAR CLineSegment CLineSegment xm xr yb xl yt yb GL GB R1) as [F1 F1'].
      pose proof (FAR CLineSegment CLineSegment xl xm yb xr yb yt GR GB R2) as [F2 F2'].
      intros s t (i & j & N & Hi & Hj).
      destruct i as [|[|[|[|[|i]]]]], j as [|[|[|[|[|j]]]]]; simpl in Hi, Hj; try congruence;
        try (destruct i; discriminate); try (destruct j; discriminate);
        injection Hi as <-; injection Hj as <-;
        first [exact F1 | exact F1' | exact F2 | exact F2' |
          match goal with |- intersection_on_segment ?x ?y = _ =>
            first [exact (proj1 (T x y eq_refl)) | exact (proj2 (T y x eq_refl)) |
                   apply (proj1 (Q x y ltac:(rewrite crossproduct_R; simpl; toR; ring))) ] end]. }
  assert (TU : turns l = [((xr - xm) * (yt - yb)); ((yt - yb) * (xr - xl)); ((xr - xl) * (yt - yb)); ((yt - yb) * (xm - xl)); 0]%R).
  { assert (forall a b c d e a' b' c' d' e' : R, a = a' -> b = b' -> c = c' -> d = d' -> e = e' -> [a;b;c;d;e] = [a';b';c';d';e']) as G by (intros; subst; reflexivity).
    unfold turns. simpl. apply G; rewrite crossproduct_R; simpl; toR; ring. }
  assert (P1 : (0 < (xr - xm) * (yt - yb))%R) by (apply Rmult_lt_0_compat; lra).
  assert (P2 : (0 < (yt - yb) * (xr - xl))%R) by (apply Rmult_lt_0_compat; lra).
  assert (P3 : (0 < (xr - xl) * (yt - yb))%R) by (apply Rmult_lt_0_compat; lra).
  assert (P4 : (0 < (yt - yb) * (xm - xl))%R) by (apply Rmult_lt_0_compat; lra).
  split; auto. split.
  - rewrite isconvex_eq by auto. rewrite TU. f_equal. apply orb_true_iff. left. apply forallb_forall.
    intros x Ix. apply Rleb_true. simpl in Ix. repeat (destruct Ix as [<-|Ix]; [lra|]). destruct Ix.
  - rewrite TU. simpl. lra.
Qed.

(*@ C41_square *)
(** C41: for a size a whose half is an 8-decimal number of at least 1e-5 and an 8-decimal position, the
    square is closed, valid and convex, has the stated five segments and bounding box, is
    counter-clockwise unless cw, and no existing object changes. *)
Lemma square_spec : forall (h : heap RA) (base : nat) (a x0 y0 : R) (cw : bool),
  decimal8 (a / 2) -> (1/10^5 <= a / 2)%R -> decimal8 x0 -> decimal8 y0 ->
  (Rabs x0 + a <= 10^11)%R -> (Rabs y0 + a <= 10^11)%R ->
  exists h' P', square h base a x0 y0 cw = Ok (h', P') /\
    let l := view h' (hsegs P') in
    let o := @mkpt RA x0 y0 in
    let ring := [@mkpt RA (x0 + a / 2)%R y0; @mkpt RA (x0 + a / 2)%R (y0 + a)%R; @mkpt RA (x0 - a / 2)%R (y0 + a)%R; @mkpt RA (x0 - a / 2)%R y0] in
    l = cycle_poly (o :: (if cw then rev ring else ring)) /\
    isclosed l = Ok true /\ isconvex l = Ok true /\ iscw l = Ok cw /\
    bounding_box l = ((x0 - a / 2, x0 + a / 2), (y0, y0 + a))%R /\
    (forall k, (k < base \/ base + 5 <= k)%nat -> h' k = h k) /\ sound h' P'.
Proof.
  intros h base a x0 y0 cw DA LA DX DY BX BY.
  assert (GA2 : on_grid (a / 2)) by (apply decimal8_grid; auto).
  assert (GA : on_grid a) by (replace a with (2 * (a / 2))%R by field; apply (grid_mulZ 2); auto).
  assert (GX : on_grid x0) by (apply decimal8_grid; auto). assert (GY : on_grid y0) by (apply decimal8_grid; auto).
  set (q0 := @mkpt RA 0%R 0%R). set (q1 := @mkpt RA (a / 2)%R 0%R). set (q2 := @mkpt RA (a / 2)%R a).
  set (q3 := @mkpt RA (- (a / 2))%R a). set (q4 := @mkpt RA (- (a / 2))%R 0%R).
  assert (G0 : on_grid 0) by apply (grid_IZR 0).
  assert (GN : on_grid (- (a / 2))) by (apply grid_opp; auto).
  assert (N0 : Point_new (A := RA) n0 n0 = q0) by (apply Point_new_id; auto).
  assert (N1 : Point_new (A := RA) (a / n2)%num n0 = q1) by (apply Point_new_id; auto).
  assert (N2 : Point_new (A := RA) (a / n2)%num a = q2) by (apply Point_new_id; auto).
  assert (NE : ((nopp a : num) / n2)%num = (- (a / 2))%R :> R) by (unfold n2; toR; field).
  assert (N3 : Point_new (A := RA) ((nopp a : num) / n2)%num a = q3) by (rewrite NE; apply Point_new_id; auto).
  assert (N4 : Point_new (A := RA) ((nopp a : num) / n2)%num n0 = q4) by (rewrite NE; apply Point_new_id; auto).
  assert (SEP : separated [q0; q1; q2; q3; q4]).
  { intros p q Ip Iq. simpl in Ip, Iq.
    assert (K : forall x, (Rabs x < 1 / 10 ^ 5)%R -> (-(1/10^5) < x < 1/10^5)%R) by (intros x Hx; apply Rabs_def2 in Hx; lra).
    repeat (destruct Ip as [<-|Ip]); try contradiction; repeat (destruct Iq as [<-|Iq]); try contradiction; simpl; intros D1 D2; apply K in D1, D2;
      try reflexivity; exfalso; simpl in *; lra. }
  assert (ND : NoDup [q0; q1; q2; q3; q4]).
  { repeat (constructor; [simpl; unfold q0, q1, q2, q3, q4; intros Q; repeat (destruct Q as [Q|Q]; [injection Q; intros; ra_simpl; lra|]); destruct Q|]). constructor. }
  set (ring := [@mkpt RA (x0 + a / 2)%R y0; @mkpt RA (x0 + a / 2)%R (y0 + a)%R; @mkpt RA (x0 - a / 2)%R (y0 + a)%R; @mkpt RA (x0 - a / 2)%R y0]).
  set (o := @mkpt RA x0 y0).
  assert (T0 : translate x0 y0 q0 = o) by (unfold translate, o; simpl; f_equal; rring).
  assert (T1 : map (translate x0 y0) [q1; q2; q3; q4] = ring).
  { assert (forall a b c d a' b' c' d' : pt RA, a = a' -> b = b' -> c = c' -> d = d' -> [a;b;c;d] = [a';b';c';d']) as G by (intros; subst; reflexivity).
    apply G; unfold translate; simpl; f_equal; rring. }
  destruct (box_shape (x0 - a / 2) x0 (x0 + a / 2) y0 (y0 + a)) as (VA & CA & TA); auto with grid; [lra|lra|].
  change [@mkpt RA x0 y0; @mkpt RA (x0 + a / 2)%R y0; @mkpt RA (x0 + a / 2)%R (y0 + a)%R; @mkpt RA (x0 - a / 2)%R (y0 + a)%R; @mkpt RA (x0 - a / 2)%R y0] with (o :: ring) in *.
  assert (RV : cycle_poly (o :: rev ring) = rev (map seg_reverse (cycle_poly (o :: ring)))) by reflexivity.
  assert (SH : isclosed (cycle_poly (o :: (if cw then rev ring else ring))) = Ok true /\
               isconvex (cycle_poly (o :: (if cw then rev ring else ring))) = Ok true /\
               iscw (cycle_poly (o :: (if cw then rev ring else ring))) = Ok cw).
  { split.
    - unfold isclosed. assert (C : iscontinuous (cycle_poly (o :: (if cw then rev ring else ring))) = true).
      { unfold iscontinuous. destruct cw; simpl; rewrite !continuous_same by reflexivity; reflexivity. }
      rewrite C. destruct cw; simpl; rewrite pt_eqb_refl; reflexivity.
    - destruct (iscw_reversed _ CA) as (b & B1 & B2 & B3 & B4 & B5); [change (fold_right Rplus 0 (turns (cycle_poly (o :: ring))) <> 0)%R; lra|].
      assert (b = false) as ->.
      { destruct b; auto. exfalso. pose proof (proj1 B5 eq_refl) as B6.
        change (fold_right Rplus 0 (turns (cycle_poly (o :: ring))) < 0)%R in B6. lra. }
      destruct cw; [|split; auto]. rewrite RV. split; auto.
      destruct (isconvex_invariant _ 0 0 VA) as (_ & -> & _). exact CA. }
  assert (BB : bounding_box (cycle_poly (o :: (if cw then rev ring else ring))) = ((x0 - a / 2, x0 + a / 2), (y0, y0 + a))%R).
  { destruct (bounding_box (cycle_poly (o :: (if cw then rev ring else ring)))) as [[x1 x2] [y1 y2]] eqn:E.
    assert (forall p, In p (flat_map ij (cycle_poly (o :: (if cw then rev ring else ring)))) <-> In p (o :: ring)) as IE
      by (intros p; destruct cw; simpl; tauto).
    assert (NN : cycle_poly (o :: (if cw then rev ring else ring)) <> []) by (destruct cw; intros Z; apply (f_equal (@length _)) in Z; vm_compute in Z; discriminate).
    destruct (fun R => bounding_box_exact _ x1 x2 y1 y2 NN R E) as (C1 & C2 & C3 & C4 & C5).
    - intros p Ip. apply IE in Ip. pose proof (Rle_abs x0). pose proof (Rle_abs (- x0)). pose proof (Rle_abs y0). pose proof (Rle_abs (- y0)).
      rewrite Rabs_Ropp in *. simpl in Ip.
      repeat (destruct Ip as [<-|Ip]; [simpl px; simpl py; split; apply Rabs_le; lra|]). destruct Ip.
    - assert (M1 := C1 o ltac:(apply IE; simpl; tauto)).
      assert (M2 := C1 (@mkpt RA (x0 + a / 2)%R (y0 + a)%R) ltac:(apply IE; simpl; tauto)).
      assert (M3 := C1 (@mkpt RA (x0 - a / 2)%R (y0 + a)%R) ltac:(apply IE; simpl; tauto)).
      unfold o in M1. simpl in M1, M2, M3.
      assert (GG : forall p, In p (flat_map ij (cycle_poly (o :: (if cw then rev ring else ring)))) -> (x0 - a / 2 <= px p <= x0 + a / 2 /\ y0 <= py p <= y0 + a)%R).
      { intros p Ip. apply IE in Ip. simpl in Ip. repeat (destruct Ip as [<-|Ip]; [simpl; lra|]). destruct Ip. }
      destruct C2 as (p1 & I1 & E1). destruct C3 as (p2 & I2 & E2). destruct C4 as (p3 & I3 & E3). destruct C5 as (p4 & I4 & E4).
      apply GG in I1, I2, I3, I4. clear - M1 M2 M3 I1 I2 I3 I4 E1 E2 E3 E4.
      assert (X1 : (x0 - a / 2 = x1 :> R)%R) by lra. assert (X2 : (x0 + a / 2 = x2 :> R)%R) by lra.
      assert (X3 : (y0 = y1 :> R)%R) by lra. assert (X4 : (y0 + a = y2 :> R)%R) by lra. rewrite <- X1, <- X2, <- X3, <- X4. reflexivity. }
  destruct SH as (SH1 & SH2 & SH3).
  unfold square. set (nodes := square_nodes (A := RA) a).
  destruct cw.
  - pose proof (five_closed h base (n0, n0) ((nopp a : num) / n2, n0)%num ((nopp a : num) / n2, a)%num (a / n2, a)%num (a / n2, n0)%num q0 q4 q3 q2 q1 x0 y0 N0 N4 N3 N2 N1) as F.
    assert (SEP' : separated [q0; q4; q3; q2; q1]) by (intros p q Ip Iq; apply SEP; simpl in *; tauto).
    assert (ND' : NoDup [q0; q4; q3; q2; q1]).
    { apply (Permutation_NoDup (l := [q0; q1; q2; q3; q4])); auto. constructor. apply Permutation_rev. }
    specialize (F SEP' ND' DX DY).
    change (hpolygon_from_nodes (A := RA) h base nodes true) with (hpolygon_from_nodes (A := RA) h base [(n0, n0); ((nopp a : num) / n2, n0)%num; ((nopp a : num) / n2, a)%num; (a / n2, a)%num; (a / n2, n0)%num] false).
    destruct (hpolygon_from_nodes h base _ false) as [h1 P1]. destruct F as (P2 & F1 & F2). rewrite F1. cbn [bind].
    destruct (move (A := RA) x0 y0 h1 P2) as [h' P']. destruct F2 as (V & FR & SO & _). exists h', P'. split; [reflexivity|].
    cbv zeta. assert (VV : view h' (hsegs P') = cycle_poly (o :: rev ring)).
    { rewrite V. f_equal. rewrite <- T1, <- T0. reflexivity. }
    rewrite VV. auto 10.
  - pose proof (five_closed h base (n0, n0) (a / n2, n0)%num (a / n2, a)%num ((nopp a : num) / n2, a)%num ((nopp a : num) / n2, n0)%num q0 q1 q2 q3 q4 x0 y0 N0 N1 N2 N3 N4) as F.
    specialize (F SEP ND DX DY).
    change (hpolygon_from_nodes (A := RA) h base nodes false) with (hpolygon_from_nodes (A := RA) h base [(n0, n0); (a / n2, n0)%num; (a / n2, a)%num; ((nopp a : num) / n2, a)%num; ((nopp a : num) / n2, n0)%num] false).
    destruct (hpolygon_from_nodes h base _ false) as [h1 P1]. destruct F as (P2 & F1 & F2). rewrite F1. cbn [bind].
    destruct (move (A := RA) x0 y0 h1 P2) as [h' P']. destruct F2 as (V & FR & SO & _). exists h', P'. split; [reflexivity|].
    cbv zeta. assert (VV : view h' (hsegs P') = cycle_poly (o :: ring)).
    { rewrite V. f_equal. rewrite <- T1, <- T0. reflexivity. }
    rewrite VV. auto 10.
Qed.

(** * C42 *)
Lemma map_halloc : forall (h : heap RA) ps base, map (halloc h base ps) (seq base (length ps)) = ps.
Proof.
  intros h ps base. apply nth_ext with (d := h 0%nat) (d' := h 0%nat); [rewrite map_length, seq_length; reflexivity|].
  intros k K. rewrite map_length, seq_length in K.
  rewrite nth_indep with (d' := halloc h base ps 0%nat) by (rewrite map_length, seq_length; auto).
  rewrite map_nth, seq_nth by auto. destruct (nth_error ps k) as [p|] eqn:E; [|apply nth_error_None in E; lia].
  rewrite (halloc_nth h base ps k p E). symmetry. apply nth_error_nth. exact E.
Qed.

Lemma In_pairs : forall X (l : list X) a b, In (a, b) (pairs l) -> In a l /\ In b l.
Proof.
  intros X l a b I. apply In_nth_error in I as [k K]. apply pairs_nth in K as [K1 K2].
  split; eapply nth_error_In; eauto.
Qed.

(** polygon_from_nodes, rotated and moved. *)
Lemma from_nodes_placed : forall (h : heap RA) base nodes (phi u v : R),
  let ps := map (fun n : R * R => Point_new (A := RA) (fst n) (snd n)) nodes in
  separated ps -> (forall p q, In (p, q) (pairs ps) -> p <> q) -> decimal8 u -> decimal8 v ->
  let '(h1, P1) := hpolygon_from_nodes (A := RA) h base nodes false in
  let '(h2, P2) := rotate_about_origin (A := RA) phi h1 P1 in
  let '(h3, P3) := move (A := RA) u v h2 P2 in
  view h3 (hsegs P3) = chain (map (fun p => translate u v (rotate_pt phi p)) ps) /\
  (forall o, (o < base \/ base + length nodes <= o)%nat -> h3 o = h o) /\
  one_object_per_place h3 (hsegs P3) /\ (forall o, In o (objects (hsegs P3)) -> (base <= o < base + length nodes)%nat) /\ hpurged P3 = true.
Proof.
  intros h base nodes phi u v ps SEP NE U V.
  assert (PS : map (fun '(x, y) => Point_new (A := RA) x y) nodes = ps) by (apply map_ext; intros [x y]; reflexivity).
  assert (LN : length ps = length nodes) by apply map_length.
  unfold hpolygon_from_nodes. rewrite PS. set (h1 := halloc h base ps).
  set (l1 := map (fun '(a, b) => mkh CLineSegment a b) (pairs (seq base (length ps)))).
  assert (V1 : view h1 l1 = chain ps).
  { unfold view, l1, chain. transitivity (map (fun e => LineSegment (fst e) (snd e)) (pairs (map h1 (seq base (length ps))))); [|unfold h1; rewrite map_halloc; reflexivity]. rewrite pairs_map, !map_map. apply map_ext. intros [a b]. reflexivity. }
  assert (OB : forall o, In o (objects l1) -> In o (seq base (length ps))).
  { intros o Io. apply In_objects in Io as (s & Is & Eo). unfold l1 in Is. apply in_map_iff in Is as ([a b] & <- & I).
    apply In_pairs in I. simpl in Eo. destruct I, Eo; subst; auto. }
  assert (OC : forall o, In o (objects l1) -> In (h1 o) ps).
  { intros o Io. apply OB in Io. apply (in_map h1) in Io. unfold h1 in Io at 2. rewrite map_halloc in Io. exact Io. }
  assert (S1 : sound h1 (mkhp l1 false)).
  { split; [|split; [|discriminate]]; simpl hsegs.
    - intros p q Ip Iq. apply in_map_iff in Ip as (o & <- & Io). apply in_map_iff in Iq as (o' & <- & Io'). apply SEP; auto.
    - intros s Is. unfold l1 in Is. apply in_map_iff in Is as ([a b] & <- & I). simpl. apply NE.
      replace (pairs ps) with (pairs (map h1 (seq base (length ps)))) by (unfold h1; rewrite map_halloc; reflexivity). rewrite pairs_map. apply in_map_iff. exists (a, b). auto. }
  pose proof (transform_view (rotate_pt phi) h1 _ S1) as T.
  change (rotate_about_origin (A := RA) phi h1 (mkhp l1 false)) with (transform (A := RA) (rotate_pt (A := RA) phi) h1 (mkhp l1 false)).
  destruct (transform (A := RA) (rotate_pt (A := RA) phi) h1 (mkhp l1 false)) as [h2 P2]. destruct T as (V2 & I2 & HP2 & F2 & O2 & E2).
  assert (O2' : one_object_per_place h2 (hsegs P2)).
  { intros a b Ia Ib Q. rewrite !E2 in Q by auto. apply O2; auto. destruct S1 as (S1 & _).
    eapply rotate_injective; eauto; apply in_map; auto. }
  pose proof (transform_fit (move_pt u v) h2 P2 HP2 O2') as M.
  change (move (A := RA) u v h2 P2) with (transform (A := RA) (move_pt (A := RA) u v) h2 P2).
  destruct (transform (A := RA) (move_pt (A := RA) u v) h2 P2) as [h3 P3]. destruct M as (-> & V3 & E3 & F3).
  split; [|split; [|split; [|split; [|exact HP2]]]].
  - rewrite V3, V2. simpl hsegs. rewrite V1. unfold chain. rewrite pairs_map, !map_map. apply map_ext. intros [a b].
    unfold seg_image. simpl. rewrite !move_pt_exact by (auto; apply rotate_within). reflexivity.
  - intros o Ho. assert (N : ~ In o (objects l1)) by (intros I; apply OB in I; apply in_seq in I; lia).
    rewrite F3 by (intros Q; apply N; apply I2; auto). rewrite F2 by (simpl; auto). apply halloc_out. lia.
  - intros a b Ia Ib Q. apply O2'; auto. rewrite !E3, !move_pt_exact in Q by (auto; rewrite E2 by auto; apply rotate_within).
    apply (f_equal (translate (- u) (- v))) in Q. rewrite !translate_back in Q. exact Q.
  - intros o Io. apply I2, OB, in_seq in Io. lia.
Qed.

(** ** Points of a circle *)
Lemma chord : forall r a b, (0 <= r)%R -> dist (circle_pt 0 0 r a) (circle_pt 0 0 r b) = (2 * r * Rabs (sin ((b - a) * PI / 360)))%R.
Proof.
  intros r a b R0. unfold dist, circle_pt. simpl px. simpl py.
  set (x := (a * PI / 180)%R). set (y := (b * PI / 180)%R). set (d := ((b - a) * PI / 360)%R).
  assert (D : (y = x + 2 * d)%R) by (unfold x, y, d; field).
  replace ((0 + r * cos x - (0 + r * cos y)) ^ 2 + (0 + r * sin x - (0 + r * sin y)) ^ 2)%R with (Rsqr (2 * r * Rabs (sin d))).
  - rewrite sqrt_Rsqr; auto. pose proof (Rabs_pos (sin d)). nra.
  - unfold Rsqr. assert (S : (Rabs (sin d) * Rabs (sin d) = sin d * sin d)%R) by (rewrite <- Rabs_mult; apply Rabs_pos_eq; nra).
    transitivity (4 * r * r * (Rabs (sin d) * Rabs (sin d)))%R; [ring|]. rewrite S.
    pose proof (sin2_cos2 x) as P1. pose proof (sin2_cos2 d) as P2. unfold Rsqr in P1, P2.
    rewrite D, cos_plus, sin_plus, cos_2a, sin_2a.
    assert (C2 : (cos d * cos d = 1 - sin d * sin d)%R) by lra. 
    assert (X2 : (cos x * cos x = 1 - sin x * sin x)%R) by lra.
    transitivity (r * r * ((sin x * sin x + cos x * cos x) * (1 + (cos d * cos d - sin d * sin d) * (cos d * cos d - sin d * sin d) + 4 * (sin d * sin d) * (cos d * cos d)
       - 2 * (cos d * cos d - sin d * sin d))))%R; [rewrite P1, C2; ring|ring].
Qed.

Lemma sin_between : forall lo x hi m, (0 <= lo -> lo <= x -> x <= hi -> hi <= PI -> m <= sin lo -> m <= sin hi -> m <= sin x)%R.
Proof.
  intros lo x hi m H0 H1 H2 H3 H4 H5. pose proof PI_RGT_0. destruct (Rle_dec x (PI / 2)).
  - pose proof (sin_incr_1 lo x). lra.
  - pose proof (sin_decr_1 x hi). lra.
Qed.

Lemma Rmod_trig : forall x, let d := @nmod RA x (@nofZ RA 360) in cos (nradians d) = cos (x * PI / 180) /\ sin (nradians d) = sin (x * PI / 180).
Proof.
  intros x d. unfold d, nradians. ra_simpl. unfold Rmodulo. set (k := Int_part (x / 360)).
  replace (x * PI / 180)%R with ((x - IZR k * 360) * (PI / 180) + 2 * IZR k * PI)%R by field.
  destruct (trig_period k ((x - IZR k * 360) * (PI / 180))) as [-> ->]. auto.
Qed.

Lemma rotate_circle : forall a r d, rotate a (circle_pt 0 0 r d) = circle_pt 0 0 r (a + d).
Proof.
  intros a r d. unfold rotate, circle_pt. simpl px. simpl py.
  replace ((a + d) * PI / 180)%R with (a * PI / 180 + d * PI / 180)%R by field. rewrite cos_plus, sin_plus. f_equal; rring.
Qed.

Section Arc.
Variables (r total : R) (m : nat).
Hypothesis R0 : (0 < r)%R.
Hypothesis T0 : (0 < total <= 360)%R.
Hypothesis M0 : (0 < m)%nat.
Let step := (total / INR m)%R.
Let node k := Point_new (A := RA) (fst (arc_node (A := RA) r step k)) (snd (arc_node (A := RA) r step k)).
Let onc k := circle_pt 0 0 r (INR k * step).

Lemma M0R : (0 < INR m)%R. Proof. apply lt_0_INR. exact M0. Qed.
Lemma node_exact : forall k, px (node k) = Rround8 (px (onc k)) /\ py (node k) = Rround8 (py (onc k)).
Proof.
  intros k. unfold node, arc_node, onc, circle_pt. cbn [fst snd].
  destruct (Rmod_trig (INR k * step)%R) as [C S]. rewrite INR_IZR_INZ in *.
  unfold Point_new. ra_simpl. simpl px. simpl py. unfold nradians in *. ra_simpl. rewrite C, S. split; f_equal; ring.
Qed.
Lemma node_within : forall k, within (5 / 10^9) (node k) (onc k).
Proof.
  intros k. destruct (node_exact k) as [E1 E2]. unfold within. rewrite E1, E2.
  pose proof (Rround8_err (px (onc k))). pose proof (Rround8_err (py (onc k))). lra.
Qed.

Hypothesis C1 : (1/10^5 <= r * sin (step * PI / 360))%R.

Lemma node_sep : forall i j, (i < j <= m)%nat -> (1/10^5 <= r * sin (total * PI / 360) \/ (j - i < m)%nat /\ total = 360)%R ->
  (Rabs (px (node i) - px (node j)) < 1/10^5)%R -> (Rabs (py (node i) - py (node j)) < 1/10^5)%R -> False.
Proof.
  intros i j L C2 D1 D2. pose proof M0R as MR. pose proof PI_RGT_0 as PI0.
  assert (ST : (0 < step)%R) by (apply Rdiv_lt_0_compat; lra).
  assert (Tm : (total = INR m * step)%R) by (unfold step; field; lra).
  assert (S2 : (1/10^5 <= r * sin (INR (j - i) * step * PI / 360))%R).
  { assert (L1 : (1 <= INR (j - i))%R) by (apply (le_INR 1); lia).
    assert (PX : forall x y, (x <= y -> x * PI / 360 <= y * PI / 360)%R) by (intros; apply Rmult_le_compat_r; [lra|]; apply Rmult_le_compat_r; lra).
    assert (Lo : (0 <= step * PI / 360)%R) by (apply Rlt_le, Rdiv_lt_0_compat; [apply Rmult_lt_0_compat; lra|lra]).
    assert (Lx : (step * PI / 360 <= INR (j - i) * step * PI / 360)%R) by (apply PX; nra).
    apply (Rmult_le_reg_l (/ r)); [apply Rinv_0_lt_compat; auto|]. rewrite <- Rmult_assoc, Rinv_l, Rmult_1_l by lra.
    assert (C1' : (/ r * (1/10^5) <= sin (step * PI / 360))%R).
    { apply (Rmult_le_reg_l r); auto. rewrite <- Rmult_assoc, Rinv_r, Rmult_1_l by lra. exact C1. }
    destruct C2 as [C2|[C2 C3]].
    - assert (C2' : (/ r * (1/10^5) <= sin (total * PI / 360))%R).
      { apply (Rmult_le_reg_l r); auto. rewrite <- Rmult_assoc, Rinv_r, Rmult_1_l by lra. exact C2. }
      assert (Lm : (INR (j - i) <= INR m)%R) by (apply le_INR; lia).
      apply (sin_between (step * PI / 360) _ (total * PI / 360)); auto.
      + apply PX. rewrite Tm. nra.
      + replace PI with (360 * PI / 360)%R at 2 by field. apply PX. lra.
    - assert (Lm : (INR (j - i) + 1 <= INR m)%R) by (rewrite <- (plus_INR _ 1); apply le_INR; lia).
      assert (SI : sin (step * PI / 360) = sin ((360 - step) * PI / 360)).
      { replace ((360 - step) * PI / 360)%R with (PI - step * PI / 360)%R by field. rewrite sin_PI_x. reflexivity. }
      apply (sin_between (step * PI / 360) _ ((360 - step) * PI / 360)); auto.
      + apply PX. rewrite <- C3, Tm. nra.
      + replace PI with (360 * PI / 360)%R at 2 by field. apply PX. lra.
      + rewrite <- SI. exact C1'. }
  assert (CH : (2/10^5 <= dist (onc i) (onc j))%R).
  { unfold onc. rewrite chord by lra. replace ((INR j * step - INR i * step) * PI / 360)%R with (INR (j - i) * step * PI / 360)%R
      by (rewrite minus_INR by lia; field). pose proof (Rle_abs (sin (INR (j - i) * step * PI / 360))). nra. }
  pose proof (within_dist _ _ _ _ (5 / 10^9) ltac:(lra) (node_within i) (node_within j)) as W.
  assert (X : (dist (node i) (node j) <= 1.42 * (1 / 10^5))%R) by (apply within_dist1; [lra|split; lra]).
  apply Rabs_le_inv in W. lra.
Qed.

Lemma node_full : total = 360%R -> node m = node 0.
Proof.
  intros T. assert (E : onc m = onc 0).
  { unfold onc, circle_pt. replace (INR m * step * PI / 180)%R with (INR 0 * step * PI / 180 + 2 * IZR 1 * PI)%R.
    - destruct (trig_period 1 (INR 0 * step * PI / 180)) as [-> ->]. reflexivity.
    - simpl INR. unfold step. rewrite T. field. pose proof M0R. lra. }
  destruct (node_exact m) as [A1 A2]. destruct (node_exact 0) as [B1 B2]. rewrite E in A1, A2.
  destruct (node m), (node 0). simpl in *. congruence.
Qed.
End Arc.

Lemma chain_last : forall l v, l <> [] -> exists s, last_opt (chain (v :: l)) = Some s /\ sj s = last l v.
Proof.
  induction l as [|x l IH]; intros v N; [congruence|]. destruct l as [|y l]; [eexists; split; reflexivity|].
  destruct (IH x) as (s & S1 & S2); [discriminate|]. exists s. split; [|rewrite S2; rewrite !last_cons; reflexivity].
  rewrite <- S1. change (chain (v :: x :: y :: l)) with (LineSegment v x :: chain (x :: y :: l)).
  change (chain (x :: y :: l)) with (LineSegment x y :: chain (y :: l)). unfold last_opt. rewrite last_cons. reflexivity.
Qed.

(*@ C42_arc_rejects *)
(** C42: out-of-range angles, radius and count are rejected. *)
Lemma arc_rejects : forall (h : heap RA) (base : nat) (cx cy r a_start a_end : R) (n : Z) (cw : bool),
  ~ (0 <= a_start < 360 /\ 0 < a_end <= 360 /\ a_start < a_end /\ 0 < r /\ (0 < n)%Z)%R ->
  arc h base cx cy r a_start a_end n cw = Err AssertionError.
Proof.
  intros h base cx cy r a1 a2 n cw N. unfold arc, n0. ra_simpl.
  destruct (Rleb 0 a1) eqn:E1; [|reflexivity]. destruct (Rltb a1 360) eqn:E2; [|reflexivity]. cbn [andb assert_ bind].
  destruct (Rltb 0 a2) eqn:E3; [|reflexivity]. destruct (Rleb a2 360) eqn:E4; [|reflexivity]. cbn [andb assert_ bind].
  destruct (Rltb a1 a2) eqn:E5; [|reflexivity]. destruct (Rltb 0 r) eqn:E6; [|reflexivity]. cbn [andb assert_ bind].
  destruct (Z.ltb_spec 0 n) as [L|L]; [|reflexivity]. exfalso. apply N.
  rewrite Rleb_true in E1, E4. rewrite Rltb_true in E2, E3, E5, E6. repeat split; auto.
Qed.

Lemma arc_full : forall (h : heap RA) (base : nat) (cx cy r a_start a_end : R) (n : nat) (cw : bool),
  (0 < n)%nat -> (0 <= a_start < 360 /\ 0 < a_end <= 360 /\ a_start < a_end /\ 0 < r)%R ->
  decimal8 cx -> decimal8 cy ->
  let total := (a_end - a_start)%R in
  (1/10^5 <= r * sin (total / INR n * PI / 360))%R ->
  (1/10^5 <= r * sin (total * PI / 360) \/ total = 360 /\ cw = false)%R ->
  exists h' P' v0 vs, arc h base cx cy r a_start a_end (Z.of_nat n) cw = Ok (h', P') /\ length vs = n /\
    (forall k p, nth_error (v0 :: vs) k = Some p ->
       dist p (circle_pt cx cy r (a_start + INR k * total / INR n)) <= 15/10^9 /\ Rabs (dist p (@mkpt RA cx cy) - r) <= 15/10^9 /\ stored p)%R /\
    view h' (hsegs P') = chain (v0 :: if cw then rev vs else vs) /\
    (total = 360%R -> isclosed (view h' (hsegs P')) = Ok true) /\
    (forall o, (o < base \/ base + S n <= o)%nat -> h' o = h o) /\
    one_object_per_place h' (hsegs P') /\ (forall o, In o (objects (hsegs P')) -> (base <= o < base + S n)%nat) /\ hpurged P' = true.
Proof.
  intros h base cx cy r a1 a2 n cw N0 (A1 & A2 & A3 & R0) DX DY total C1 C2.
  assert (T0 : (0 < total <= 360)%R) by (unfold total; lra).
  set (step := (total / INR n)%R) in *. pose proof (M0R n N0) as NR.
  set (node := fun k => Point_new (A := RA) (fst (arc_node (A := RA) r step k)) (snd (arc_node (A := RA) r step k))).
  (* the assertions and the division *)
  assert (PD : pdiv (A := RA) (a2 - a1)%num (nofZ (Z.of_nat n)) = Ok step).
  { unfold pdiv. ra_simpl. unfold n0. ra_simpl. rewrite <- INR_IZR_INZ. destruct (Reqb (INR n) 0) eqn:E; [apply Reqb_true in E; lra|]. reflexivity. }
  unfold arc. unfold n0. 
  assert (B1 : (nofZ 0 <=? a1)%num = true) by (ra_simpl; apply Rleb_true; lra).
  assert (B2 : (a1 <? nofZ 360)%num = true) by (ra_simpl; apply Rltb_true; lra).
  assert (B3 : (nofZ 0 <? a2)%num = true) by (ra_simpl; apply Rltb_true; lra).
  assert (B4 : (a2 <=? nofZ 360)%num = true) by (ra_simpl; apply Rleb_true; lra).
  assert (B5 : (a1 <? a2)%num = true) by (ra_simpl; apply Rltb_true; lra).
  assert (B6 : (nofZ 0 <? r)%num = true) by (ra_simpl; apply Rltb_true; lra).
  rewrite B1, B2, B3, B4, B5, B6. assert (B7 : (0 <? Z.of_nat n)%Z = true) by (apply Z.ltb_lt; lia). rewrite B7.
  cbn [andb assert_ bind]. rewrite PD. cbn [bind]. rewrite Nat2Z.id, Nat.add_1_r.
  set (nodes := map (arc_node (A := RA) r step) (seq 0 (S n))).
  set (nodes' := if cw then cw_nodes nodes else nodes).
  set (mk := fun q : R * R => Point_new (A := RA) (fst q) (snd q)).
  assert (HN : hpolygon_from_nodes (A := RA) h base nodes cw = hpolygon_from_nodes (A := RA) h base nodes' false) by (unfold nodes'; destruct cw; reflexivity).
  rewrite HN.
  assert (PS0 : map mk nodes = map node (seq 0 (S n))) by (unfold nodes; rewrite map_map; reflexivity).
  assert (PS : map mk nodes' = node 0 :: (if cw then rev (map node (seq 1 n)) else map node (seq 1 n))).
  { unfold nodes'. destruct cw.
    - unfold nodes, cw_nodes. cbn [seq map]. simpl rev. rewrite removelast_last. cbn [map]. f_equal. rewrite map_rev, map_map. reflexivity.
    - rewrite PS0. reflexivity. }
  assert (IN : forall p, In p (map mk nodes') -> exists k, (k <= n)%nat /\ p = node k).
  { intros p I. rewrite PS in I. destruct I as [<-|I]; [exists 0%nat; split; auto; lia|].
    assert (In p (map node (seq 1 n))) as J by (destruct cw; [apply in_rev in I|]; exact I).
    apply in_map_iff in J as (k & <- & K). apply in_seq in K. exists k. split; auto; lia. }
  assert (SEPI : forall i j, (i < j <= n)%nat -> (Rabs (px (node i) - px (node j)) < 1/10^5)%R -> (Rabs (py (node i) - py (node j)) < 1/10^5)%R ->
                 (i = 0 /\ j = n)%nat /\ total = 360%R /\ cw = false).
  { intros i j L D1 D2. destruct C2 as [C2|[C2 C3]].
    - exfalso. apply (node_sep r total n R0 T0 N0 C1 i j L); auto.
    - destruct (Nat.eq_dec (j - i) n) as [E|E]; [split; [lia|auto]|].
      exfalso. apply (node_sep r total n R0 T0 N0 C1 i j L); auto. right. split; auto. lia. }
  assert (FULL : total = 360%R -> node n = node 0%nat) by exact (node_full r total n N0).
  assert (SEP : separated (map mk nodes')).
  { intros p q Ip Iq D1 D2. apply IN in Ip as (i & Li & ->). apply IN in Iq as (j & Lj & ->).
    destruct (lt_eq_lt_dec i j) as [[L|E]|L]; [|rewrite E; reflexivity|].
    - destruct (SEPI i j) as ((-> & ->) & T & _); auto. symmetry. auto.
    - rewrite Rabs_minus_sym in D1, D2. destruct (SEPI j i) as ((-> & ->) & T & _); auto. }
  assert (NEIJ : forall i j, (i < j <= n)%nat -> node i = node j -> (i = 0 /\ j = n)%nat /\ total = 360%R /\ cw = false).
  { intros i j L E. apply SEPI; auto; rewrite E, Rminus_diag_eq, Rabs_R0 by reflexivity; lra. }
  assert (N1 : total = 360%R -> cw = false -> (1 < n)%nat).
  { intros T _. destruct (Nat.eq_dec n 1) as [E|]; [|lia]. exfalso. unfold step in C1. rewrite E, T in C1. simpl INR in C1.
    replace (360 / 1 * PI / 360)%R with PI in C1 by field. rewrite sin_PI in C1. lra. }
  assert (NE : forall p q, In (p, q) (pairs (map mk nodes')) -> p <> q).
  { intros p q I. apply In_nth_error in I as [k K]. apply pairs_nth in K as [K1 K2]. rewrite PS in K1, K2.
    assert (NS : forall i, (i < n)%nat -> nth_error (map node (seq 1 n)) i = Some (node (S i))).
    { intros i Li. rewrite nth_error_map, nth_error_nth' with (d := 0%nat) by (rewrite seq_length; auto). rewrite seq_nth by auto. reflexivity. }
    assert (LS : length (map node (seq 1 n)) = n) by (rewrite map_length, seq_length; reflexivity).
    destruct cw.
    - assert (NR' : forall i, (i < n)%nat -> nth_error (rev (map node (seq 1 n))) i = Some (node (n - i)%nat)).
      { intros i Li. rewrite nth_error_nth' with (d := node 0%nat) by (rewrite rev_length, LS; auto).
        rewrite rev_nth by (rewrite LS; auto). rewrite LS. f_equal. apply nth_error_nth. rewrite NS by lia. do 2 f_equal. lia. }
      assert (Lk : (k < n)%nat).
      { destruct (Nat.lt_ge_cases k n); auto. exfalso. simpl nth_error in K2. assert (nth_error (rev (map node (seq 1 n))) k = None) as Z by (apply nth_error_None; rewrite rev_length, LS; auto). congruence. }
      simpl nth_error in K2. rewrite NR' in K2 by auto. injection K2 as <-.
      destruct k as [|k]; simpl nth_error in K1.
      + injection K1 as <-. intros Q. destruct (NEIJ 0%nat (n - 0)%nat ltac:(lia) Q) as (_ & _ & Q2). discriminate.
      + rewrite NR' in K1 by lia. injection K1 as <-. intros Q. destruct (NEIJ (n - S k)%nat (n - k)%nat ltac:(lia) (eq_sym Q)) as (_ & _ & Q2). discriminate.
    - assert (Lk : (k < n)%nat).
      { destruct (Nat.lt_ge_cases k n); auto. exfalso. simpl nth_error in K2. assert (nth_error (map node (seq 1 n)) k = None) as Z by (apply nth_error_None; rewrite LS; auto). congruence. }
      simpl nth_error in K2. rewrite NS in K2 by auto. injection K2 as <-.
      assert (p = node k) as ->. { destruct k as [|k]; simpl nth_error in K1; [congruence|rewrite NS in K1 by lia; congruence]. }
      intros Q. destruct (NEIJ k (S k) ltac:(lia) Q) as ((Q1 & Q2) & Q3 & Q4). specialize (N1 Q3 Q4). lia. }
  pose proof (from_nodes_placed h base nodes' a1 cx cy SEP NE DX DY) as F.
  destruct (hpolygon_from_nodes (A := RA) h base nodes' false) as [h1 P1].
  destruct (rotate_about_origin (A := RA) a1 h1 P1) as [h2 P2].
  destruct (move (A := RA) cx cy h2 P2) as [h3 P3]. destruct F as (V & FR & ONE & OBJ & PUR).
  set (g := fun p => translate cx cy (rotate_pt (A := RA) a1 p)) in *.
  assert (VV : view h3 (hsegs P3) = chain (g (node 0%nat) :: (if cw then rev (map g (map node (seq 1 n))) else map g (map node (seq 1 n))))).
  { rewrite V. fold mk. rewrite PS. cbn [map]. destruct cw; [rewrite map_rev|]; reflexivity. }
  assert (LNN : length (map mk nodes') = S n).
  { rewrite PS. simpl. destruct cw; rewrite ?rev_length, map_length, seq_length; reflexivity. }
  exists h3, P3, (g (node 0%nat)), (map g (map node (seq 1 n))).
  split; [reflexivity|]. split; [rewrite !map_length, seq_length; reflexivity|]. split; [|split; [exact VV|split; [|split; [|split; [exact ONE|split; [|exact PUR]]]]]].
  - intros k p K.
    assert (p = g (node k)) as ->.
    { change (g (node 0%nat) :: map g (map node (seq 1 n))) with (map g (map node (seq 0 (S n)))) in K.
      rewrite !nth_error_map in K. destruct (nth_error (seq 0 (S n)) k) as [i|] eqn:E; simpl in K; [|discriminate]. injection K as <-.
      f_equal. f_equal. apply nth_error_nth with (d := 0%nat) in E as E2. rewrite seq_nth in E2; [lia|].
      assert (nth_error (seq 0 (S n)) k <> None) as Q by congruence. apply nth_error_Some in Q. rewrite seq_length in Q. exact Q. }
    set (e := circle_pt 0 0 r (INR k * step)).
    assert (TR : forall x y, dist (translate cx cy x) (translate cx cy y) = dist x y).
    { intros x y. unfold dist, translate. simpl. f_equal. ring. }
    assert (CP : circle_pt cx cy r (a1 + INR k * total / INR n) = translate cx cy (rotate a1 e)).
    { unfold e. rewrite rotate_circle. unfold translate, circle_pt. simpl px. simpl py.
      replace (INR k * total / INR n)%R with (INR k * step)%R by (unfold step; field; lra). f_equal; rring. }
    assert (D : (dist (g (node k)) (circle_pt cx cy r (a1 + INR k * total / INR n)) <= 15/10^9)%R).
    { rewrite CP. unfold g. rewrite TR. pose proof (dist_triangle (rotate_pt (A := RA) a1 (node k)) (rotate a1 (node k)) (rotate a1 e)) as D1.
      rewrite rotate_dist in D1.
      pose proof (within_dist1 _ _ (5/10^9) ltac:(lra) (proj1 (rotate_within a1 (node k)))).
      pose proof (within_dist1 _ _ (5/10^9) ltac:(lra) (node_within r total n k)) as D2. change (dist (node k) e <= 1.42 * (5 / 10 ^ 9))%R in D2. lra. }
    split; [exact D|].
    assert (CE : dist (circle_pt cx cy r (a1 + INR k * total / INR n)) (@mkpt RA cx cy) = r).
    { unfold dist, circle_pt. simpl px. simpl py. set (x := ((a1 + INR k * total / INR n) * PI / 180)%R).
      pose proof (sin2_cos2 x) as Q. unfold Rsqr in Q.
      replace ((cx + r * cos x - cx) ^ 2 + (cy + r * sin x - cy) ^ 2)%R with (r * r)%R; [apply sqrt_square; lra|].
      transitivity (r * r * (sin x * sin x + cos x * cos x))%R; [rewrite Q; ring|ring]. }
    pose proof (dist_triangle (g (node k)) (circle_pt cx cy r (a1 + INR k * total / INR n)) (@mkpt RA cx cy)) as D1.
    pose proof (dist_triangle (circle_pt cx cy r (a1 + INR k * total / INR n)) (g (node k)) (@mkpt RA cx cy)) as D2.
    rewrite CE in *. rewrite (dist_sym _ (g (node k))) in D2. split; [apply Rabs_le; lra|].
    unfold g. apply stored_translate; auto. apply rotate_within.
  - intros T. rewrite VV.
    assert (cw = false) as ->.
    { destruct C2 as [C2|[_ C2]]; auto. exfalso. rewrite T in C2. replace (360 * PI / 360)%R with PI in C2 by field. rewrite sin_PI in C2. lra. }
    assert (CC : forall ps : list (pt RA), iscontinuous (chain ps) = true).
    { intros ps. unfold iscontinuous. apply forallb_forall. intros [s t] I. apply In_nth_error in I as [k K]. apply pairs_nth in K as [K1 K2].
      unfold chain in K1, K2. rewrite nth_error_map in K1, K2. destruct (nth_error (pairs ps) k) as [[a b]|] eqn:E1; [|discriminate].
      destruct (nth_error (pairs ps) (S k)) as [[c d]|] eqn:E2; [|discriminate]. apply pairs_nth in E1 as [E1 E1']. apply pairs_nth in E2 as [E2 E2'].
      simpl in K1, K2. injection K1 as <-. injection K2 as <-. apply continuous_same. simpl. congruence. }
    unfold isclosed. rewrite CC. destruct n as [|n']; [lia|].
    destruct (chain_last (map g (map node (seq 1 (S n')))) (g (node 0%nat))) as (s & S1 & S2); [discriminate|].
    unfold last_point, last_segment, first_point, first_segment. rewrite S1. cbn [bind].
    assert (S3 : sj s = g (node 0%nat)).
    { rewrite S2, seq_S, !map_app. cbn [map]. rewrite last_last. change (1 + n')%nat with (S n'). rewrite (FULL T). reflexivity. }
    cbn. rewrite S3, pt_eqb_refl. reflexivity.
  - intros o Ho. apply FR. rewrite map_length in LNN. clear - LNN Ho. unfold nodes' in *. lia.
  - intros o Io. specialize (OBJ o Io). rewrite map_length in LNN. clear - LNN OBJ. unfold nodes' in *. lia.
Qed.
(*@ C42_arc *)
(** C42: an arc with an 8-decimal centre whose nodes are not nearly coincident (chords of one step and
    of the whole arc at least 2e-5; or a full counter-clockwise circle) has n segments; they join
    consecutive vertices, the k-th of which is within 1.5e-8 of the point of the circle at the angle
    alpha_start + k/n (alpha_end - alpha_start) and has 8-decimal coordinates.  With cw the order is: first vertex, then the last
    one, and back to the second. *)
Lemma arc_spec : forall (h : heap RA) (base : nat) (cx cy r a_start a_end : R) (n : nat) (cw : bool),
  (0 < n)%nat -> (0 <= a_start < 360 /\ 0 < a_end <= 360 /\ a_start < a_end /\ 0 < r)%R ->
  decimal8 cx -> decimal8 cy ->
  let total := (a_end - a_start)%R in
  (1/10^5 <= r * sin (total / INR n * PI / 360))%R ->
  (1/10^5 <= r * sin (total * PI / 360) \/ total = 360 /\ cw = false)%R ->
  exists h' P' v0 vs, arc h base cx cy r a_start a_end (Z.of_nat n) cw = Ok (h', P') /\ length vs = n /\
    (forall k p, nth_error (v0 :: vs) k = Some p ->
       dist p (circle_pt cx cy r (a_start + INR k * total / INR n)) <= 15/10^9 /\ Rabs (dist p (@mkpt RA cx cy) - r) <= 15/10^9 /\ stored p)%R /\
    view h' (hsegs P') = chain (v0 :: if cw then rev vs else vs) /\
    (total = 360%R -> isclosed (view h' (hsegs P')) = Ok true) /\
    (forall o, (o < base \/ base + S n <= o)%nat -> h' o = h o).
Proof.
  intros h base cx cy r a_start a_end n cw N0 A DX DY total C1 C2.
  destruct (arc_full h base cx cy r a_start a_end n cw N0 A DX DY C1 C2) as (h' & P' & v0 & vs & E1 & E2 & E3 & E4 & E5 & E6 & _).
  exists h', P', v0, vs. repeat (split; [assumption|]). assumption.
Qed.

(** ** Findings and examples *)
Definition fdec (L : Libm) (a b d : Z) : pt (FA L) := Point_new (A := FA L) (ndiv (nofZ a) (nofZ d)) (ndiv (nofZ b) (nofZ d)).

(*@ C27_near_points_refuted *)
(** C27, finding: with three end points A, B, C closer to their neighbours than the tolerance (but A and
    C farther) purge replaces the far end F of the segment C F by A. *)
Lemma purge_near_refuted : forall L : Libm, exists (h : heap (FA L)) (P : hpoly),
  hpurged P = false /\ isclosed (view h (hsegs P)) = Ok true /\
  hsegs P = map (fun e => mkh CLineSegment (fst e) (snd e)) (cycle_edges [0; 3; 1; 4; 2; 5]%nat) /\
  (match nth_error (hsegs (purge h P)) 4 with Some s => (hi s, hj s) | None => (9, 9)%nat end) = (2, 0)%nat /\
  nltb n1 (pt_distance (h 5%nat) (h 0%nat)) = true.
Proof.
  intros L.
  exists (fun k => nth k [fdec L 0 0 1; fdec L 8 0 1000000; fdec L 15 0 1000000; fdec L 1 5 1; fdec L 2 4 1; fdec L 3 3 1] (fdec L 9 9 1)).
  exists (mkhp (map (fun e => mkh CLineSegment (fst e) (snd e)) (cycle_edges [0; 3; 1; 4; 2; 5]%nat)) false).
  split; [reflexivity|]. split; [vm_compute; reflexivity|]. split; [reflexivity|]. split; vm_compute; reflexivity.
Qed.

(** A libm that is right up to 1e-15 at the multiples of pi/2 below 2 pi. *)
Definition quadrant_libm : Libm :=
  let q (v0 v1 v2 v3 : Z) (x : F) := if SFltb x (FofZ 1) then FofZ v0 else if SFltb x (FofZ 2) then FofZ v1 else if SFltb x (FofZ 4) then FofZ v2 else FofZ v3 in
  {| lm_sin := q 0 1 0 (-1); lm_cos := q 1 0 (-1) 0; lm_acos := fun x => x; lm_atan2 := fun x _ => x |}%Z.

(*@ C42_cw_circle_refuted *)
(** C42, finding: a full circle with cw=True about a centre other than the origin is not closed: its
    first segment is null with two Point objects, and only one of them is moved.  The same circle
    without cw is closed. *)
Lemma cw_circle_refuted :
  let F0 := FA quadrant_libm in let z k : @num F0 := nofZ k in
  let circle cw := (r <- arc (A := F0) (fun _ => Point_new (z 0%Z) (z 0%Z)) 0 (z 10%Z) (z 10%Z) (z 1%Z) (z 0%Z) (z 360%Z) 4 cw ;; isclosed (view (fst r) (hsegs (snd r)))) in
  circle true = Ok false /\ circle false = Ok true.
Proof. split; vm_compute; reflexivity. Qed.
