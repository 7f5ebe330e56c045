(** Shapes of the vessel parts (C53). *)
From Coq Require Import Reals ZArith Lra Lia Bool List Permutation Arith Psatz.
From Verif Require Import Base Arith ArithR ArithF MPoint MLine MPoly MHeap MVessel Spec SpecHeap SpecInside PPoint PLine PPoly PShape PHeap PConvex PInside.
Import ListNotations.
#[local] Existing Instance RA.
Open Scope R_scope.

Lemma Rnearest_even_shift : forall x k, Rnearest (x + IZR (2 * k)) = (Rnearest x + 2 * k)%Z.
Proof.
  intros x k. unfold Rnearest. destruct (Int_part_spec x) as [P Q].
  assert (I : Int_part (x + IZR (2 * k)) = (Int_part x + 2 * k)%Z) by (apply Int_part_unique; rewrite plus_IZR; lra).
  rewrite I, plus_IZR. replace (x + IZR (2 * k) - (IZR (Int_part x) + IZR (2 * k))) with (x - IZR (Int_part x)) by lra.
  replace (Z.even (Int_part x + 2 * k)) with (Z.even (Int_part x)) by (rewrite Z.even_add_mul_2; reflexivity).
  destruct (Rlt_dec _ _); [reflexivity|]. destruct (Rlt_dec _ _); [lia|]. destruct (Z.even _); lia.
Qed.

(** Rounding commutes with the reflection about a grid value. *)
Lemma Rround8_mirror : forall c x, on_grid c -> Rround8 (2 * c - x) = 2 * c - Rround8 x.
Proof.
  intros c x [k ->]. unfold Rround8.
  replace ((2 * (IZR k / 100000000) - x) * 100000000) with (- (x * 100000000) + IZR (2 * k)) by (rewrite mult_IZR; field).
  rewrite Rnearest_even_shift, Rnearest_opp, plus_IZR, opp_IZR, mult_IZR. field.
Qed.

Lemma convex_valid_any : forall (vs : list (pt RA)) (l : list (seg RA)), vs <> [] -> separated vs ->
  (forall a b c, In (a, b) (cycle_edges vs) -> In c vs -> 0 <= orient a b c) ->
  map (fun s => (si s, sj s)) l = cycle_edges vs ->
  iscontinuous l = true /\ poly_isvalid l = Ok true.
Proof.
  intros vs l NE SEP CV M.
  assert (NTH : forall k s, nth_error l k = Some s -> nth_error (cycle_edges vs) k = Some (si s, sj s)).
  { intros k s E. rewrite <- M. apply (map_nth_error (fun s => (si s, sj s))), E. }
  assert (C : iscontinuous l = true).
  { pose proof (iscontinuous_cycle vs) as IC. rewrite iscontinuous_iff in IC. apply iscontinuous_iff. intros k s t Hs Ht.
    specialize (IC k (LineSegment (si s) (sj s)) (LineSegment (si t) (sj t))).
    change (continuous s t) with (continuous (LineSegment (si s) (sj s)) (LineSegment (si t) (sj t))).
    apply IC; unfold cycle_poly; rewrite nth_error_map; [rewrite (NTH _ _ Hs)|rewrite (NTH _ _ Ht)]; reflexivity. }
  split; [exact C|]. apply poly_isvalid_true. split; [|split].
  - intros ->. destruct vs as [|v [|w r]]; [congruence| |]; discriminate.
  - exact C.
  - intros s t (i & j & _ & Hi & Hj). apply NTH, nth_error_In in Hi, Hj.
    pose proof (cycle_edges_In _ _ _ _ Hi) as [I1 I2]. pose proof (cycle_edges_In _ _ _ _ Hj) as [J1 J2].
    apply ios_same_side; auto.
    intros p q [<-|[<-|[]]] [<-|[<-|[]]]; apply SEP; auto.
Qed.

Lemma isclosed_cont : forall (l : list (seg RA)) (s t : seg RA), iscontinuous l = true -> nth_error l 0 = Some s -> last_opt l = Some t ->
  sj t = si s -> isclosed l = Ok true.
Proof.
  intros l s t C F L E. unfold isclosed. rewrite C. unfold first_point, last_point, first_segment, last_segment, get. rewrite F, L. simpl.
  f_equal. apply pt_eqb_iff. rewrite E, !Rminus_eq_0, Rabs_R0. lra.
Qed.

(** The four corners. *)
Lemma mantel_points : forall (pos_v pos_h d0 d1 h : R), decimal8 pos_h ->
  let p1 := Point_new (A := RA) (pos_h + d0 / 2) pos_v in
  let p2 := Point_new (A := RA) (pos_h + d1 / 2) (pos_v + h) in
  mantel_segments pos_v pos_h d0 d1 h = [Wall p1 p2; NonWall p2 (mirror pos_h p2); Wall (mirror pos_h p2) (mirror pos_h p1); NonWall (mirror pos_h p1) p1].
Proof.
  intros pos_v pos_h d0 d1 h G p1 p2. unfold mantel_segments.
  assert (E : forall d y : R, Point_new (A := RA) (pos_h - d / 2) y = mirror pos_h (Point_new (A := RA) (pos_h + d / 2) y)).
  { intros d y. unfold Point_new, mirror. cbn. f_equal. rewrite <- Rround8_mirror by (apply decimal8_grid, G). f_equal. lra. }
  ra_simpl. fold p1 p2. rewrite <- (E d0 pos_v : _ = mirror pos_h p1), <- (E d1 (pos_v + h) : _ = mirror pos_h p2). reflexivity.
Qed.

(*@ C53_mantel *)
(** C53: a Mantel with an 8-decimal axis has the right wall from (pos_h + d0/2, pos_v) to
    (pos_h + d1/2, pos_v + h), up to the rounding of the corners, the left wall is its exact mirror image,
    two non-walls join them to a closed line, and the graph consists of the two walls. *)
Lemma mantel_spec : forall (pos_v pos_h d0 d1 h : R), decimal8 pos_h ->
  let l := mantel_segments pos_v pos_h d0 d1 h in
  exists p1 p2, l = [Wall p1 p2; NonWall p2 (mirror pos_h p2); Wall (mirror pos_h p2) (mirror pos_h p1); NonWall (mirror pos_h p1) p1] /\
    within (5 / 10^9) p1 (@mkpt RA (pos_h + d0 / 2) pos_v) /\ within (5 / 10^9) p2 (@mkpt RA (pos_h + d1 / 2) (pos_v + h)) /\
    (decimal8 (d0 / 2) -> decimal8 (d1 / 2) -> decimal8 pos_v -> decimal8 h ->
       p1 = @mkpt RA (pos_h + d0 / 2) pos_v /\ p2 = @mkpt RA (pos_h + d1 / 2) (pos_v + h)) /\
    isclosed l = Ok true /\
    wall_segments l = [Wall p1 p2; Wall (mirror pos_h p2) (mirror pos_h p1)].
Proof.
  intros pos_v pos_h d0 d1 h G l. unfold l. rewrite mantel_points by exact G.
  set (p1 := Point_new (A := RA) (pos_h + d0 / 2) pos_v). set (p2 := Point_new (A := RA) (pos_h + d1 / 2) (pos_v + h)).
  exists p1, p2. split; [reflexivity|].
  assert (W : forall x y : R, within (5 / 10^9) (Point_new (A := RA) x y) (@mkpt RA x y)).
  { intros x y. split; cbn [px py Point_new nround8 RA]; (eapply Rle_trans; [apply Rround8_err|lra]). }
  split; [apply W|]. split; [apply W|]. split; [|split].
  - intros G0 G1 G2 G3. apply decimal8_grid in G, G0, G1, G2, G3. unfold p1, p2, Point_new. cbn [nround8 RA].
    rewrite !Rround8_id by (repeat apply grid_plus; auto). auto.
  - eapply isclosed_cont; [|reflexivity|reflexivity|reflexivity].
    apply iscontinuous_iff. intros [|[|[|[|k]]]] s t Hs Ht; try discriminate; injection Hs as <-; injection Ht as <-; apply continuous_same; reflexivity.
  - reflexivity.
Qed.

Lemma round_far : forall x y : R, 2 / 10^5 <= x - y -> 1 / 10^5 <= Rround8 x - Rround8 y.
Proof.
  intros x y H. pose proof (Rround8_err x) as E1. pose proof (Rround8_err y) as E2.
  apply Rabs_le_inv in E1, E2. lra.
Qed.

(*@ C53_valid *)
(** C53: a Mantel with an 8-decimal axis whose diameters and height are at least 4e-5 is valid. *)
Lemma mantel_valid : forall (pos_v pos_h d0 d1 h : R), decimal8 pos_h ->
  4 / 10^5 <= d0 -> 4 / 10^5 <= d1 -> 4 / 10^5 <= h ->
  mantel_isvalid (mantel_segments pos_v pos_h d0 d1 h) = Ok true.
Proof.
  intros pos_v pos_h d0 d1 h G H0 H1 H2. pose proof (proj1 (decimal8_grid _) G) as G'.
  rewrite mantel_points by exact G. cbv zeta.
  set (x1 := Rround8 (pos_h + d0 / 2)). set (x2 := Rround8 (pos_h + d1 / 2)). set (y1 := Rround8 pos_v). set (y2 := Rround8 (pos_v + h)).
  assert (X1 : 1 / 10^5 <= x1 - pos_h) by (rewrite <- (Rround8_id pos_h) at 1 by exact G'; apply round_far; lra).
  assert (X2 : 1 / 10^5 <= x2 - pos_h) by (rewrite <- (Rround8_id pos_h) at 1 by exact G'; apply round_far; lra).
  assert (Y : 1 / 10^5 <= y2 - y1) by (apply round_far; lra).
  change (Point_new (A := RA) (pos_h + d0 / 2) pos_v) with (@mkpt RA x1 y1).
  change (Point_new (A := RA) (pos_h + d1 / 2) (pos_v + h)) with (@mkpt RA x2 y2).
  clearbody x1 x2 y1 y2. unfold mirror. cbn [px py].
  unfold mantel_isvalid. cbn [wall_segments filter is_wall sc scls_eqb Wall NonWall si sj px py neqb RA].
  assert (E : forall a b : R, a = b -> Reqb a b = true) by (intros a b ->; unfold Reqb; destruct (Req_EM_T b b); congruence).
  ra_simpl. rewrite !(E _ _ eq_refl).
  assert (E3 : Reqb ((x1 + (2 * pos_h - x1)) / n2) ((x2 + (2 * pos_h - x2)) / n2) = true).
  { apply E. f_equal. lra. }
  rewrite E3. cbn [andb].
  set (vs := [@mkpt RA x1 y1; @mkpt RA x2 y2; @mkpt RA (2 * pos_h - x2) y2; @mkpt RA (2 * pos_h - x1) y1]).
  match goal with |- poly_isvalid ?l = _ => apply (convex_valid_any vs l) end; [discriminate| | |reflexivity].
  - assert (FAR : forall a b : R, 1 / 10^5 <= a - b -> Rabs (a - b) < 1 / 10^5 -> False).
    { intros a b L B. apply Rabs_def2 in B. lra. }
    assert (FAR' : forall a b : R, 1 / 10^5 <= b - a -> Rabs (a - b) < 1 / 10^5 -> False).
    { intros a b L B. apply Rabs_def2 in B. lra. }
    intros p q Hp Hq A B. simpl in Hp, Hq.
    decompose [or] Hp; try contradiction; decompose [or] Hq; try contradiction; subst p q; cbn [px py] in A, B; try reflexivity; exfalso;
      (first [eapply FAR; [|exact A]; lra | eapply FAR; [|exact B]; lra | eapply FAR'; [|exact A]; lra | eapply FAR'; [|exact B]; lra]).
  - intros a b c Hab Hc. unfold vs in Hab, Hc. cbn in Hab, Hc.
    decompose [or] Hab; try contradiction; decompose [or] Hc; try contradiction;
      repeat match goal with E : (_, _) = (_, _) |- _ => injection E; clear E; intros; subst end; subst; unfold orient; cbn [px py]; nra.
Qed.

(*@ C53_isvalid *)
(** C53: a part is valid as a Mantel exactly if it has two walls, the first starting at the height where the
    second ends and ending at the height where the second starts, with a vertical axis, and if its
    segments are a valid polygon. *)
Lemma mantel_isvalid_iff : forall l : list (seg RA), mantel_isvalid l = Ok true <->
  exists s0 s1, filter (fun s => match sc s with CWall => true | _ => false end) l = [s0; s1] /\
    py (si s0) = py (sj s1) /\ py (sj s0) = py (si s1) /\ (px (si s0) + px (sj s1) = px (sj s0) + px (si s1))%R /\
    poly_isvalid l = Ok true.
Proof.
  intros l. unfold mantel_isvalid.
  assert (W : wall_segments l = filter (fun s => match sc s with CWall => true | _ => false end) l).
  { unfold wall_segments. apply filter_ext. intros s. unfold is_wall. destruct (sc s); reflexivity. }
  rewrite W. split.
  - destruct (filter _ l) as [|s0 [|s1 [|s2 r]]]; try discriminate. intros E. exists s0, s1. split; auto.
    ra_simpl. destruct (Reqb (py (si s0)) (py (sj s1))) eqn:E1; [|discriminate]. destruct (Reqb (py (sj s0)) (py (si s1))) eqn:E2; [|discriminate].
    match type of E with context [true && true && Reqb ?a ?b] => destruct (Reqb a b) eqn:E3; [|discriminate] end. cbn [andb] in E.
    apply Reqb_true in E1, E2, E3. repeat (split; auto). unfold n2 in E3. cbn [nofZ RA] in E3. lra.
  - intros (s0 & s1 & -> & E1 & E2 & E3 & E).
    apply Reqb_true in E1, E2. ra_simpl. rewrite E1, E2, E3, Reqb_refl. exact E.
Qed.

(*@ C53_standzarge *)
(** C53: a StandZarge has the Mantel's outline with a Wall below, so three walls and isvalid is always
    False, in every arithmetic. *)
Lemma standzarge_spec : forall (A : Arith) (pos_v pos_h d0 d1 h : @num A),
  let m := mantel_segments pos_v pos_h d0 d1 h in let s := standzarge_segments pos_v pos_h d0 d1 h in
  map (fun x => (si x, sj x)) s = map (fun x => (si x, sj x)) m /\
  map (@sc A) s = [CWall; CNonWall; CWall; CWall] /\ mantel_isvalid s = Ok false.
Proof. intros. repeat split. Qed.

(*@ C53_flat *)
(** C53: a Flachboden or RaumEnde with 8-decimal sizes is one Wall from (pos_h - d/2, pos_v) to (pos_h + d/2, pos_v). *)
Lemma flat_spec : forall (pos_v pos_h d : R), decimal8 pos_v -> decimal8 pos_h -> decimal8 (d / 2) ->
  flachboden_segments (A := RA) pos_v pos_h d = [Wall (@mkpt RA (pos_h - d / 2) pos_v) (@mkpt RA (pos_h + d / 2) pos_v)].
Proof.
  intros pos_v pos_h d G1 G2 G3. apply decimal8_grid in G1, G2, G3.
  assert (G0 : on_grid 0) by (exists 0%Z; lra).
  assert (G4 : on_grid (- d / 2)) by (replace (- d / 2) with (- (d / 2)) by lra; apply grid_opp, G3).
  unfold flachboden_segments, seg_move, Wall, move_pt, Point_new. cbn [sc si sj px py nround8 RA].
  cbn [n0 n2 nofZ nadd ndiv nopp num RA].
  replace (IZR 0) with 0 by reflexivity. replace (IZR 2) with 2 by reflexivity.
  rewrite !Rround8_id by (repeat first [assumption | apply grid_round8 | apply grid_plus]).
  f_equal. f_equal; f_equal; lra.
Qed.

(*@ C53_axis_refuted *)
(** C53, finding: in binary64 the Mantel with axis 0.1, diameters 0.1 and 0.4 and height 1 is reported invalid,
    because the test for the vertical axis compares two rounded means with ==. *)
Lemma axis_refuted : forall L, let z k : @num (FA L) := nofZ k in
  mantel_isvalid (mantel_segments (z 0%Z) (ndec 1 10) (ndec 1 10) (ndec 4 10) (z 1%Z)) = Ok false.
Proof. intros L. vm_compute. reflexivity. Qed.

(*@ex C53_example *)
Example mantel_example : mantel_isvalid (mantel_segments (A := RA) 0 1 2 4 3) = Ok true /\
  flachboden_segments (A := RA) 1 0 2 = [Wall (@mkpt RA (-1) 1) (@mkpt RA 1 1)].
Proof.
  split; [apply mantel_valid; [exists (100000000)%Z; lra|lra..]|].
  rewrite (flat_spec 1 0 2); [f_equal; f_equal; f_equal; lra|exists 100000000%Z; lra|exists 0%Z; lra|exists 100000000%Z; lra].
Qed.
