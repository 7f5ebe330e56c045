(** The transition between a cone and a shell. *)
From Coq Require Import Reals ZArith Lra Lia Bool List Psatz Permutation.
From Verif Require Import Base Arith ArithR ArithF MPoint MLine MPoly MHeap MVessel MKrempe Spec SpecHeap SpecKrempe PPoint PLine PPoly PShape PHeap PMore POrder PVessel.
Import ListNotations.
Local Open Scope R_scope.
#[local] Existing Instance RA.

Ltac eqR := match goal with |- @eq _ ?a ?b => change (@eq R a b) end.
(** ** Helpers *)
Lemma d8_add : forall a b, decimal8 a -> decimal8 b -> decimal8 (a + b).
Proof. intros a b [k ->] [l ->]. exists (k + l)%Z. rewrite plus_IZR. lra. Qed.
Lemma d8_opp : forall a, decimal8 a -> decimal8 (- a).
Proof. intros a [k ->]. exists (- k)%Z. rewrite opp_IZR. lra. Qed.
Lemma d8_sub : forall a b, decimal8 a -> decimal8 b -> decimal8 (a - b).
Proof. intros a b Ha Hb. apply d8_add; auto. apply d8_opp; auto. Qed.
Lemma d8_round : forall x, decimal8 (Rround8 x).
Proof. intros x. apply decimal8_grid, Rround8_grid. Qed.
Lemma d8_id : forall x, decimal8 x -> Rround8 x = x.
Proof. intros x D. apply Rround8_id, decimal8_grid. auto. Qed.
Lemma bb_x : forall (l : list (seg RA)) s b, In s l -> let '((x0, x1), _) := fold_left bb_step l b in x0 <= px (si s) <= x1.
Proof.
  assert (G : forall (l : list (seg RA)) b, let '((x0, x1), _) := fold_left bb_step l b in x0 <= fst (fst b) /\ snd (fst b) <= x1).
  { induction l as [|t l IH]; intros b; cbn [fold_left]; [destruct b as [[? ?] ?]; cbn; lra|]. specialize (IH (bb_step b t)). destruct (fold_left bb_step l (bb_step b t)) as [[x0 x1] y].
    destruct b as [[a c] [d e]]. unfold bb_step in IH. cbn [fst snd] in *. rewrite nmin_R, nmax_R in IH.
    pose proof (Rmin_l a (@nmin RA (px (si t)) (px (sj t)))). pose proof (Rmax_l c (@nmax RA (px (si t)) (px (sj t)))). lra. }
  induction l as [|t l IH]; intros s b I; [destruct I|]. cbn [fold_left]. destruct I as [->|I]; [|apply IH; auto].
  specialize (G l (bb_step b s)). destruct (fold_left bb_step l (bb_step b s)) as [[x0 x1] y]. destruct b as [[a c] [d e]]. unfold bb_step in G. cbn [fst snd] in *.
  rewrite !nmin_R, !nmax_R in G. pose proof (Rmin_r a (Rmin (px (si s)) (px (sj s)))). pose proof (Rmin_l (px (si s)) (px (sj s))). pose proof (Rmax_r c (Rmax (px (si s)) (px (sj s)))). pose proof (Rmax_l (px (si s)) (px (sj s))). lra.
Qed.
(** The cut of a wall by a horizontal line *)
Lemma cut_spec : forall (Y : R) (p : mpart RA) (v : R) s t r, m_segs p = s :: r -> In t r -> 1 / 10^7 <= Rabs (px (si s) - px (si t)) -> py (si s) <> py (sj s) -> decimal8 (Y + v) ->
  cut_point (A := RA) Y p (Some v) = Ok (Some (rounded (along (si s) (sj s) ((Y + v - py (si s)) / (py (sj s) - py (si s)))))).
Proof.
  intros Y p v s t r E It W NE D. unfold cut_point. rewrite E. cbn [get nth_error bind].
  pose proof (bb_x (s :: r) s bb0 (or_introl eq_refl)) as B1. pose proof (bb_x (s :: r) t bb0 (or_intror It)) as B2. unfold bounding_box.
  destruct (fold_left bb_step (s :: r) bb0) as [[x0 x1] [y0 y1]]. rewrite !nmin_R, !nmax_R. 
  set (far := @nabs RA (Rmax y0 y1)). assert (F : 0 <= far) by apply Rabs_pos.
  set (xa := @nsub RA (Rmin x0 x1) far). set (xb := @nadd RA (Rmax x0 x1) far). set (yv := @nadd RA Y v).
  assert (EA : xa = Rmin x0 x1 - far) by reflexivity. assert (EB : xb = Rmax x0 x1 + far) by reflexivity. assert (EY : yv = Y + v) by reflexivity. clearbody xa xb yv.
  set (c := LineSegment (Point_new xa yv) (Point_new xb yv)).
  assert (L : xa + 1 / 10^7 <= xb).
  { rewrite EA, EB. pose proof (Rmin_l x0 x1). pose proof (Rmax_r x0 x1). unfold Rabs in W. destruct (Rcase_abs _); lra. }
  assert (C1 : px (si c) < px (sj c)).
  { unfold c. cbn [si sj LineSegment]. unfold Point_new. cbn [px]. change (@nround8 RA) with Rround8. pose proof (Rround8_err xa) as E1. pose proof (Rround8_err xb) as E2. unfold Rabs in E1, E2. destruct (Rcase_abs _), (Rcase_abs _); lra. }
  assert (C2 : py (si c) = Y + v) by (unfold c; cbn [si sj LineSegment]; unfold Point_new; cbn [py]; rewrite EY; apply d8_id; auto).
  assert (C3 : py (sj c) = Y + v) by (unfold c; cbn [si sj LineSegment]; unfold Point_new; cbn [py]; rewrite EY; apply d8_id; auto).
  destruct (intersection_point_spec c s) as [_ H]. destruct H as (q & EQ & _ & _ & U).
  { apply is_parallel_false. unfold crossproduct, delta_x, delta_y. ra. rewrite C2, C3. assert (px (sj c) - px (si c) <> 0) by lra. assert (py (sj s) - py (si s) <> 0) by lra. nra. }
  rewrite EQ. unfold rounded. rewrite <- (U (along (si s) (sj s) ((Y + v - py (si s)) / (py (sj s) - py (si s))))); [reflexivity| |eexists; reflexivity].
  set (k := along _ _ _). exists ((px k - px (si c)) / (px (sj c) - px (si c))). unfold along at 1. rewrite C2, C3. unfold k, along. cbn [px py]. f_equal; field; lra.
Qed.
Lemma mantel_outline : forall (pos_v pos_h d0 d1 h : R), decimal8 pos_h -> decimal8 pos_v -> decimal8 h -> decimal8 (d0 / 2) -> decimal8 (d1 / 2) ->
  mantel_segments (A := RA) pos_v pos_h d0 d1 h = outline pos_h (@mkpt RA (pos_h + d0 / 2) pos_v) (@mkpt RA (pos_h + d1 / 2) (pos_v + h)).
Proof. intros pos_v pos_h d0 d1 h A B C D E. destruct (mantel_spec pos_v pos_h d0 d1 h A) as (p1 & p2 & -> & _ & _ & K & _). destruct (K D E B C) as [-> ->]. reflexivity. Qed.
Lemma cone_segs : forall j, fits j -> m_segs (cone j) = outline (axis j) (foot j) (bend j).
Proof.
  intros j ((A1 & A2 & A3 & A4 & A5 & A6 & A7 & A8 & A9) & _). unfold cone, mantel. cbn [m_segs]. rewrite mantel_outline; auto; [|apply d8_sub; auto].
  unfold foot, bend. replace (seam j - cone_h j + cone_h j) with (seam j) by ring. reflexivity.
Qed.
Lemma shell_segs : forall j, fits j -> m_segs (shell j) = outline (axis j) (bend j) (head j).
Proof. intros j ((A1 & A2 & A3 & A4 & A5 & A6 & A7 & A8 & A9) & _). unfold shell, mantel. cbn [m_segs]. rewrite mantel_outline; auto. Qed.
Lemma start_y : forall j, fits j -> py (start j) = seam j - down j /\ px (start j) = axis j + d_mid j / 2 - (d_mid j - d_low j) / 2 * (down j / cone_h j).
Proof. intros j (_ & _ & _ & D & _). unfold start, along, foot, bend. cbn [px py]. split; eqR; field; lra. Qed.
Lemma stop_y : forall j, fits j -> py (stop j) = seam j + up j /\ px (stop j) = axis j + d_mid j / 2 + (d_top j - d_mid j) / 2 * (up j / shell_h j).
Proof. intros j (_ & _ & _ & _ & D). unfold stop, along, head, bend. cbn [px py]. split; eqR; field; lra. Qed.
Lemma frac : forall a b, 1 / 10^5 <= a <= b - 1 / 10^5 -> 0 < a / b < 1.
Proof. intros a b H. split; [apply Rdiv_lt_0_compat; lra|]. apply (Rmult_lt_reg_r b); [lra|]. replace (a / b * b) with a by (field; lra). lra. Qed.
Lemma start_x : forall j, fits j -> axis j + d_low j / 2 <= Rround8 (px (start j)) <= axis j + d_mid j / 2.
Proof.
  intros j F. destruct (start_y j F) as [_ ->]. destruct F as ((A1 & A2 & A3 & A4 & A5 & A6 & A7 & A8 & A9) & B1 & B2 & B3 & B4). pose proof (frac _ _ B3) as T. set (t := down j / cone_h j) in *.
  split; [rewrite <- (d8_id (axis j + d_low j / 2)) by (apply d8_add; auto)|rewrite <- (d8_id (axis j + d_mid j / 2)) at 2 by (apply d8_add; auto)]; apply Rround8_mono; nra.
Qed.
Lemma stop_x : forall j, fits j -> axis j + Rmin (d_mid j) (d_top j) / 2 <= Rround8 (px (stop j)) <= axis j + Rmax (d_mid j) (d_top j) / 2.
Proof.
  intros j F. destruct (stop_y j F) as [_ ->]. destruct F as ((A1 & A2 & A3 & A4 & A5 & A6 & A7 & A8 & A9) & B1 & B2 & B3 & B4). pose proof (frac _ _ B4) as T. set (t := up j / shell_h j) in *.
  unfold Rmin, Rmax. destruct (Rle_dec (d_mid j) (d_top j)) as [L|L].
  - split; [rewrite <- (d8_id (axis j + d_mid j / 2)) at 1 by (apply d8_add; auto)|rewrite <- (d8_id (axis j + d_top j / 2)) by (apply d8_add; auto)]; apply Rround8_mono; nra.
  - split; [rewrite <- (d8_id (axis j + d_top j / 2)) at 1 by (apply d8_add; auto)|rewrite <- (d8_id (axis j + d_mid j / 2)) at 2 by (apply d8_add; auto)]; apply Rround8_mono; nra.
Qed.
(** The test of the ends *)
Lemma on_wall : forall (a b q : pt RA) c, py a < py b -> Rmin (px a) (px b) <= px q <= Rmax (px a) (px b) -> py a + 1 / 10^5 <= py q <= py b - 1 / 10^5 ->
  exists l, is_point_on_line (mkseg c a b) q = Ok l /\ ls_is_internal_point (mkseg c a b) q = true /\
    (l = true <-> Rabs ((py b - py a) * (px q - px (along a b ((py q - py a) / (py b - py a))))) < 1 / 10^8).
Proof.
  intros a b q c Y X I. unfold is_point_on_line. cbn [si sj].
  assert (N1 : pt_eqb q a = false) by (apply pt_eqb_false_iff; right; rewrite Rabs_right by lra; lra).
  assert (N2 : pt_eqb q b = false) by (apply pt_eqb_false_iff; right; rewrite Rabs_left by lra; lra).
  rewrite N1, N2. cbn [orb]. unfold crossproduct_commonstart. cbn [si sj LineSegment]. rewrite pt_eqb_refl. cbn [assert_ bind]. ra.
  eexists. split; [reflexivity|]. split.
  - unfold ls_is_internal_point. cbn [si sj]. rewrite !nmin_R, !nmax_R. ra. rewrite (Rmin_left (py a)), (Rmax_right (py a)) by lra. rewrite !andb_true_iff, !Rltb_true, !Rleb_true. lra.
  - rewrite Rltb_true. unfold along. cbn [px py]. rewrite <- (Rabs_Ropp (_ * (_ - _))).
    replace (- ((py b - py a) * (px q - (px a + (py q - py a) / (py b - py a) * (px b - px a))))) with ((px b - px a) * (py q - py a) - (py b - py a) * (px q - px a)) by (field; lra). split; intros; lra.
Qed.
Lemma off_wall : forall (a b q : pt RA) c, py a < py b -> py q < py a - 1 / 10^8 \/ py b + 1 / 10^8 < py q ->
  exists l, is_point_on_line (mkseg c a b) q = Ok l /\ ls_is_internal_point (mkseg c a b) q = false.
Proof.
  intros a b q c Y I. exists (match is_point_on_line (mkseg c a b) q with Ok l => l | _ => false end). split.
  - unfold is_point_on_line. cbn [si sj]. destruct (_ || _); [reflexivity|]. unfold crossproduct_commonstart. cbn [si sj LineSegment]. rewrite pt_eqb_refl. reflexivity.
  - unfold ls_is_internal_point. cbn [si sj]. rewrite !nmin_R, !nmax_R. ra. rewrite (Rmin_left (py a)), (Rmax_right (py a)) by lra.
    apply not_true_is_false. rewrite !andb_true_iff, !Rltb_true, !Rleb_true. lra.
Qed.
(** One row of the mirrored side *)
Lemma side_mirror : forall x (a c b : pt RA), decimal8 x -> stored a -> stored c -> stored b -> py a + 1 / 10^5 <= py c -> py c + 1 / 10^5 <= py b ->
  let h := halloc (A := RA) (fun _ => a) 0 [a; c; c; b] in let P := mkhp [mkh CLineSegment 0 1; mkh CLineSegment 2 3] false in
  let y := mirror_vertical (A := RA) x h P in
  view h (hsegs P) = [LineSegment a c; LineSegment c b] /\
  view (fst y) (hsegs (snd y)) = [LineSegment (mirror x a) (mirror x c); LineSegment (mirror x c) (mirror x b)].
Proof.
  intros x a c b DX Sa Sc Sb L1 L2 h P y.
  assert (V : view h (hsegs P) = [LineSegment a c; LineSegment c b]) by reflexivity. split; auto.
  assert (SO : sound h P).
  { split; [|split; [|discriminate]].
    - change (separated [a; c; c; b]). intros p q Ip Iq _ D. simpl in Ip, Iq. apply Rabs_def2 in D.
      decompose [or] Ip; try contradiction; decompose [or] Iq; try contradiction; subst; auto; lra.
    - intros s Is. change (In s [mkh CLineSegment 0 1; mkh CLineSegment 2 3]) in Is. destruct Is as [<-|[<-|[]]]; cbn; intros E; [apply (f_equal py) in E|apply (f_equal py) in E]; cbn in E; lra. }
  pose proof (transform_ext (mirror_pt (A := RA) x) (mirror x) h P SO) as T. unfold y, mirror_vertical. destruct (transform (mirror_pt (A := RA) x) h P) as [h' P']. cbn [fst snd]. rewrite T, V; [reflexivity|].
  intros p Ip. change (In p [a; c; c; b]) in Ip. assert (SP : stored p) by (simpl in Ip; decompose [or] Ip; try contradiction; subst; auto). destruct SP as [P1 P2].
  unfold mirror_pt, mirror, Point_new. ra. replace (px p - 2 * (px p - x)) with (x + (x - px p)) by ring. replace (2 * x - px p) with (x + (x - px p)) by ring.
  rewrite !d8_id; auto. apply d8_add; auto. apply d8_sub; auto.
Qed.
Lemma again_stored : forall p : pt RA, stored p -> again p = p.
Proof. intros [x y] [S1 S2]. unfold again, Point_new. cbn [px py]. change (@nround8 RA) with Rround8. rewrite !d8_id; auto. Qed.
Lemma rounded_stored : forall p : pt RA, stored (rounded p).
Proof. intros p. unfold rounded, Point_new. split; cbn [px py]; change (@nround8 RA) with Rround8; apply d8_round. Qed.
Lemma mirror_stored : forall x (p : pt RA), decimal8 x -> stored p -> stored (mirror x p).
Proof. intros x p D [S1 S2]. split; cbn [px py mirror]; auto. replace (2 * x - px p) with (x + (x - px p)) by ring. apply d8_add; auto. apply d8_sub; auto. Qed.

Lemma cut_ends : forall j, fits j -> let q0 := rounded (start j) in let q1 := rounded (stop j) in
  q0 = @mkpt RA (Rround8 (px (start j))) (seam j - down j) /\ q1 = @mkpt RA (Rround8 (px (stop j))) (seam j + up j) /\
  cut_point (A := RA) (seam j) (cone j) (Some (- down j)) = Ok (Some q0) /\ cut_point (A := RA) (seam j) (shell j) (Some (up j)) = Ok (Some q1).
Proof.
  intros j F q0 q1.
  pose proof (start_y j F) as [Y0 _]. pose proof (stop_y j F) as [Y1 _]. pose proof (start_x j F) as X0. pose proof (stop_x j F) as X1.
  pose proof (cone_segs j F) as CS. pose proof (shell_segs j F) as SS.
  destruct F as ((A1 & A2 & A3 & A4 & A5 & A6 & A7 & A8 & A9) & B1 & B2 & B3 & B4).
  assert (Q0 : q0 = @mkpt RA (Rround8 (px (start j))) (seam j - down j)).
  { unfold q0, rounded, Point_new. rewrite Y0. change (@nround8 RA) with Rround8. rewrite (d8_id (seam j - down j)) by (apply d8_sub; auto). reflexivity. }
  assert (Q1 : q1 = @mkpt RA (Rround8 (px (stop j))) (seam j + up j)).
  { unfold q1, rounded, Point_new. rewrite Y1. change (@nround8 RA) with Rround8. rewrite (d8_id (seam j + up j)) by (apply d8_add; auto). reflexivity. }
  assert (C0 : cut_point (A := RA) (seam j) (cone j) (Some (- down j)) = Ok (Some q0)).
  { rewrite (cut_spec (seam j) (cone j) (- down j) (Wall (foot j) (bend j)) (NonWall (mirror (axis j) (foot j)) (foot j)) _ CS); cbn [si sj Wall NonWall].
    - do 2 f_equal. unfold q0. f_equal. unfold start, along, foot, bend. cbn [px py]. f_equal; field; lra.
    - cbn. auto.
    - unfold foot, mirror. cbn [px py]. rewrite Rabs_right by lra. lra.
    - unfold foot, bend. cbn [py]. lra.
    - apply d8_add; auto. apply d8_opp; auto. }
  assert (C1 : cut_point (A := RA) (seam j) (shell j) (Some (up j)) = Ok (Some q1)).
  { rewrite (cut_spec (seam j) (shell j) (up j) (Wall (bend j) (head j)) (NonWall (mirror (axis j) (bend j)) (bend j)) _ SS); cbn [si sj Wall NonWall].
    - do 2 f_equal. unfold q1. f_equal. unfold stop, along, head, bend. cbn [px py]. f_equal; field; lra.
    - cbn. auto.
    - unfold bend, mirror. cbn [px py]. rewrite Rabs_right by lra. lra.
    - unfold head, bend. cbn [py]. lra.
    - apply d8_add; auto. }
  auto.
Qed.
(** The test of the cut points *)
Lemma cut_tests : forall j, fits j -> let q0 := rounded (start j) in let q1 := rounded (stop j) in
  (exists l, on_part (A := RA) (cone j) q0 = Ok l /\ (l = true <-> Rabs (cone_h j * (px q0 - px (start j))) < 1 / 10^8)) /\
  (exists l, on_part (A := RA) (shell j) q1 = Ok l /\ (l = true <-> Rabs (shell_h j * (px q1 - px (stop j))) < 1 / 10^8)) /\
  on_part (A := RA) (cone j) q1 = Ok false /\ on_part (A := RA) (shell j) q0 = Ok false.
Proof.
  intros j F q0 q1. destruct (cut_ends j F) as (Q0 & Q1 & _). fold q0 in Q0. fold q1 in Q1.
  pose proof (start_y j F) as [Y0 _]. pose proof (stop_y j F) as [Y1 _]. pose proof (start_x j F) as X0. pose proof (stop_x j F) as X1.
  pose proof (cone_segs j F) as CS. pose proof (shell_segs j F) as SS.
  destruct F as ((A1 & A2 & A3 & A4 & A5 & A6 & A7 & A8 & A9) & B1 & B2 & B3 & B4).
  assert (K0 : exists l, on_part (A := RA) (cone j) q0 = Ok l /\ (l = true <-> Rabs (cone_h j * (px q0 - px (start j))) < 1 / 10^8)).
  { unfold on_part. rewrite CS. cbn [outline get nth_error bind]. destruct (on_wall (foot j) (bend j) q0 CWall) as (l & E1 & E2 & E3).
    - unfold foot, bend. cbn [py]. lra.
    - rewrite Q0. unfold foot, bend. cbn [px]. rewrite Rmin_left, Rmax_right by lra. lra.
    - rewrite Q0. unfold foot, bend. cbn [py]. lra.
    - exists l. change (Wall (foot j) (bend j)) with (mkseg CWall (foot j) (bend j)). rewrite E1. cbn [bind]. rewrite E2, andb_true_r. split; auto. rewrite E3.
      replace (py (bend j) - py (foot j)) with (cone_h j) by (unfold bend, foot; cbn [py]; ring).
      replace (along (foot j) (bend j) ((py q0 - py (foot j)) / cone_h j)) with (start j); [tauto|]. rewrite Q0. unfold start, along, bend, foot. cbn [px py]. f_equal; field; lra. }
  assert (K1 : exists l, on_part (A := RA) (shell j) q1 = Ok l /\ (l = true <-> Rabs (shell_h j * (px q1 - px (stop j))) < 1 / 10^8)).
  { unfold on_part. rewrite SS. cbn [outline get nth_error bind]. destruct (on_wall (bend j) (head j) q1 CWall) as (l & E1 & E2 & E3).
    - unfold head, bend. cbn [py]. lra.
    - rewrite Q1. unfold head, bend. cbn [px]. unfold Rmin, Rmax in *. destruct (Rle_dec (d_mid j) (d_top j)), (Rle_dec (axis j + d_mid j / 2) (axis j + d_top j / 2)); lra.
    - rewrite Q1. unfold head, bend. cbn [py]. lra.
    - exists l. change (Wall (bend j) (head j)) with (mkseg CWall (bend j) (head j)). rewrite E1. cbn [bind]. rewrite E2, andb_true_r. split; auto. rewrite E3.
      replace (py (head j) - py (bend j)) with (shell_h j) by (unfold bend, head; cbn [py]; ring).
      replace (along (bend j) (head j) ((py q1 - py (bend j)) / shell_h j)) with (stop j); [tauto|]. rewrite Q1. unfold stop, along, bend, head. cbn [px py]. f_equal; field; lra. }
  assert (Z0 : on_part (A := RA) (cone j) q1 = Ok false).
  { unfold on_part. rewrite CS. cbn [outline get nth_error bind]. destruct (off_wall (foot j) (bend j) q1 CWall) as (l & E1 & E2).
    - unfold foot, bend. cbn [py]. lra.
    - rewrite Q1. unfold foot, bend. cbn [py]. lra.
    - change (Wall (foot j) (bend j)) with (mkseg CWall (foot j) (bend j)). rewrite E1. cbn [bind]. rewrite E2, andb_false_r. auto. }
  assert (Z1 : on_part (A := RA) (shell j) q0 = Ok false).
  { unfold on_part. rewrite SS. cbn [outline get nth_error bind]. destruct (off_wall (bend j) (head j) q0 CWall) as (l & E1 & E2).
    - unfold head, bend. cbn [py]. lra.
    - rewrite Q0. unfold head, bend. cbn [py]. lra.
    - change (Wall (bend j) (head j)) with (mkseg CWall (bend j) (head j)). rewrite E1. cbn [bind]. rewrite E2, andb_false_r. auto. }
  auto.
Qed.
Lemma given_order : forall j hts below, given j hts below -> by_height (A := RA) hts = match below with Some u => [u; shell j] | None => [shell j] end.
Proof.
  intros j hts below GI. destruct GI as [|u U|u U]; cbn [by_height]; [reflexivity| |]; change (m_v (shell j)) with (seam j).
  - replace (@nltb RA (seam j) (m_v u)) with false by (symmetry; apply Rltb_false; lra). reflexivity.
  - replace (@nltb RA (m_v u) (seam j)) with true by (symmetry; apply Rltb_true; lra). reflexivity.
Qed.
(** The corners of the parts are stored as given. *)
Lemma corners_stored : forall j, fits j -> stored (foot j) /\ stored (bend j) /\ stored (head j).
Proof.
  intros j ((A1 & A2 & A3 & A4 & A5 & A6 & A7 & A8 & A9) & _). unfold foot, bend, head.
  split; [|split]; (split; cbn [px py]; [apply d8_add; auto|]); [apply d8_sub; auto|auto|apply d8_add; auto].
Qed.

(*@ C81_sharp *)
(** C81: the transition without a knuckle (r = 0) between a cone and a shell that fit.  It is accepted exactly if rounding
    the two cut points moves them, times the height of the part, by less than 1e-8.  Then the cone ends and the shell begins at the
    cut points; the transition is the closed polygon start - bend - stop and its mirror image. *)
Lemma sharp_krempe : forall j hts below, fits j -> given j hts below -> let q0 := rounded (start j) in let q1 := rounded (stop j) in let m := mirror (axis j) in
  (Rabs (cone_h j * (px q0 - px (start j))) < 1 / 10^8 /\ Rabs (shell_h j * (px q1 - px (stop j))) < 1 / 10^8 ->
   exists k r, kegelkrempe (up j) (down j) 0 hts (cone j) = Ok k /\
     k_kegel k = outline (axis j) (foot j) q0 /\ k_oben k = outline (axis j) q1 (head j) /\ k_unten k = option_map (below_outline j) below /\
     krempe_part k = Ok (true, r) /\ iscontinuous r = true /\ isclosed r = Ok true /\ rearranged r (k_segs k) /\
     k_segs k = [Wall q0 (bend j); Wall (bend j) q1; NonWall q1 (m q1); Wall (m (bend j)) (m q1); Wall (m q0) (m (bend j)); NonWall (m q0) q0]) /\
  (~ (Rabs (cone_h j * (px q0 - px (start j))) < 1 / 10^8 /\ Rabs (shell_h j * (px q1 - px (stop j))) < 1 / 10^8) ->
   kegelkrempe (up j) (down j) 0 hts (cone j) = Err AssertionError).
Proof.
  intros j hts below F GI q0 q1 m. destruct (cut_ends j F) as (Q0 & Q1 & C0 & C1). destruct (cut_tests j F) as (K0 & K1 & Z0 & Z1). fold q0 q1 in Q0, Q1, C0, C1, K0, K1, Z0, Z1. pose proof (start_y j F) as [Y0 _]. pose proof (stop_y j F) as [Y1 _]. pose proof (start_x j F) as X0. pose proof (stop_x j F) as X1.
  pose proof (cone_segs j F) as CS. pose proof (shell_segs j F) as SS.
  destruct F as ((A1 & A2 & A3 & A4 & A5 & A6 & A7 & A8 & A9) & B1 & B2 & B3 & B4).
  assert (SB : stored (bend j)) by (split; unfold bend; cbn [px py]; auto; apply d8_add; auto).
  destruct (side_mirror (axis j) q0 (bend j) q1) as [VR VL]; auto; try apply rounded_stored.
  { rewrite Q0. unfold bend. cbn [py]. lra. } { rewrite Q1. unfold bend. cbn [py]. lra. }
  (* the constructor up to the test *)
  assert (EV : forall T, kegelkrempe (A := RA) (up j) (down j) 0 hts (cone j) = T <->
     (check_ends (A := RA) (shell j) (cone j) q0 q1 ;;; Ok (mkk [Wall q0 (bend j); Wall (bend j) q1; NonWall q1 (m q1); Wall (m (bend j)) (m q1); Wall (m q0) (m (bend j)); NonWall (m q0) q0]
       (outline (axis j) q1 (head j)) (outline (axis j) (foot j) q0) (option_map (below_outline j) below))) = T).
  { intros T. unfold kegelkrempe.
    pose proof (given_order j hts below GI) as BH.
    rewrite BH. replace (Nat.leb 1 _ && Nat.leb _ 2) with true by (destruct below; reflexivity).
    replace (last_of _) with (@Ok (mpart RA) (shell j)) by (destruct below; reflexivity). cbn [assert_ bind].
    replace (@nltb RA (m_d0 (cone j)) (m_d1 (cone j))) with true by (symmetry; apply Rltb_true; cbn; lra). cbn [assert_ bind].
    replace (@nltb RA n0 (up j)) with true by (symmetry; apply Rltb_true; unfold n0; cbn; lra). cbn [assert_ bind].
    replace (@nltb RA n0 (down j)) with true by (symmetry; apply Rltb_true; unfold n0; cbn; lra). cbn [assert_ bind].
    unfold right_side. replace (@nltb RA n0 0) with false by (symmetry; apply Rltb_false; unfold n0; cbn; lra).
    replace (@neqb RA 0 n0) with true by (symmetry; apply Reqb_true; unfold n0; cbn; lra).
    replace (@nltb RA n0 (up j)) with true by (symmetry; apply Rltb_true; unfold n0; cbn; lra). cbn [assert_ bind].
    replace (@nltb RA n0 (down j)) with true by (symmetry; apply Rltb_true; unfold n0; cbn; lra). cbn [assert_ bind].
    match goal with |- context [@cut_point RA ?a (cone j) ?b] => change (@cut_point RA a (cone j) b) with (@cut_point RA (seam j) (cone j) (Some (- down j))) end. rewrite C0. cbn [bind].
    match goal with |- context [@cut_point RA ?a (shell j) ?b] => change (@cut_point RA a (shell j) b) with (@cut_point RA (seam j) (shell j) (Some (up j))) end. rewrite C1. cbn [bind]. rewrite SS, CS. cbn [outline get nth_error bind si sj Wall NonWall].
    change (m_h (shell j)) with (axis j). cbn [fst snd]. rewrite VR, VL. cbn [get nth_error bind last_of last_opt last LineSegment si sj].
    unfold foot at 1. cbn [m_h m_v m_d0 m_d1 m_height shell cone mantel]. ra.
    assert (P2 : Point_new (axis j + d_top j / 2) (seam j + shell_h j) = head j) by (apply (again_stored (head j)); split; unfold head; cbn [px py]; repeat apply d8_add; auto).
    assert (P3 : Point_new (axis j - d_top j / 2) (seam j + shell_h j) = mirror (axis j) (head j)).
    { replace (axis j - d_top j / 2) with (2 * axis j - (axis j + d_top j / 2)) by ring. apply (again_stored (mirror (axis j) (head j))). apply mirror_stored; auto. split; unfold head; cbn [px py]; repeat apply d8_add; auto. }
    assert (P1 : Point_new (axis j + d_low j / 2) (seam j - cone_h j) = foot j) by (apply (again_stored (foot j)); split; unfold foot; cbn [px py]; [apply d8_add|apply d8_sub]; auto).
    assert (P4 : Point_new (axis j - d_low j / 2) (seam j - cone_h j) = mirror (axis j) (foot j)).
    { replace (axis j - d_low j / 2) with (2 * axis j - (axis j + d_low j / 2)) by ring. apply (again_stored (mirror (axis j) (foot j))). apply mirror_stored; auto. split; unfold foot; cbn [px py]; [apply d8_add|apply d8_sub]; auto. }
    change (nofZ 2) with 2 in *. rewrite P1, P2, P3, P4. rewrite !again_stored; auto using rounded_stored, mirror_stored; try apply mirror_stored; auto; try apply rounded_stored.
    destruct below as [u|]; [|reflexivity]. destruct u as [? ? ? ? ? [|] ?]; reflexivity. }
  destruct K0 as (l0 & E0 & L0). destruct K1 as (l1 & E1 & L1). unfold check_ends in EV. rewrite E0, Z0, Z1, E1 in EV. cbn [bind] in EV. rewrite !orb_false_r in EV. cbn [orb] in EV.
  split.
  - intros [H0 H1]. apply L0 in H0. apply L1 in H1. subst l0 l1. cbn [assert_ bind] in EV. eexists.
    set (ks := [Wall q0 (bend j); Wall (bend j) q1; NonWall q1 (m q1); Wall (m (bend j)) (m q1); Wall (m q0) (m (bend j)); NonWall (m q0) q0]) in *.
    set (vs := [q0; bend j; q1; m q1; m (bend j); m q0]).
    assert (YC : py (bend j) = seam j) by reflexivity. assert (XC : px (bend j) = axis j + d_mid j / 2) by reflexivity.
    assert (SEP : separated vs).
    { assert (FAR : forall a b : R, 1 / 10^5 <= a - b -> Rabs (a - b) < 1 / 10^5 -> False) by (intros a b L B; apply Rabs_def2 in B; lra).
      assert (FAR' : forall a b : R, 1 / 10^5 <= b - a -> Rabs (a - b) < 1 / 10^5 -> False) by (intros a b L B; apply Rabs_def2 in B; lra).
      assert (X0' : 1 / 10^5 / 2 <= Rround8 (px (start j)) - axis j) by lra.
      assert (X1' : 1 / 10^5 / 2 <= Rround8 (px (stop j)) - axis j) by (unfold Rmin in X1; destruct (Rle_dec _ _); lra).
      intros p q Ip Iq D1 D2. unfold vs in Ip, Iq. simpl in Ip, Iq. rewrite Q0, Q1 in Ip, Iq. unfold m, mirror in Ip, Iq. cbn [px py] in Ip, Iq. unfold bend in Ip, Iq. cbn [px py] in Ip, Iq.
      decompose [or] Ip; try contradiction; decompose [or] Iq; try contradiction; subst p q; cbn [px py] in D1, D2; try reflexivity; exfalso;
      (first [eapply FAR; [|exact D1]; lra | eapply FAR; [|exact D2]; lra | eapply FAR'; [|exact D1]; lra | eapply FAR'; [|exact D2]; lra]). }
    assert (ND : NoDup vs).
    { assert (X0' : 1 / 10^5 / 2 <= Rround8 (px (start j)) - axis j) by lra.
      assert (X1' : 1 / 10^5 / 2 <= Rround8 (px (stop j)) - axis j) by (unfold Rmin in X1; destruct (Rle_dec _ _); lra).
      assert (NE : forall p q : pt RA, px p <> px q \/ py p <> py q -> p <> q) by (intros p q [H|H] ->; auto).
      unfold vs. rewrite Q0, Q1. unfold m, mirror, bend. cbn [px py].
      repeat constructor; cbn [In]; intros H; decompose [or] H; try contradiction; match goal with E : _ = _ |- _ => revert E; apply NE; cbn [px py]; first [left; lra|right; lra] end. }
    destruct (order_spec vs ks ks) as (us & r & EO & RE & _ & _ & CO & CL & _); auto.
    { cbn. lia. }
    { unfold vs, ks, cycle_edges. cbn [app combine]. repeat (apply Forall2_cons; [unfold joins; cbn; auto|]). constructor. }
    exists r. split; [apply EV; reflexivity|]. cbn [k_kegel k_oben k_unten k_segs]. repeat (split; [reflexivity|]). auto.
  - intros N. apply EV. destruct l0; [|reflexivity]. destruct l1; [|reflexivity]. exfalso. apply N. tauto.
Qed.

(*@ C81_small *)
(** C81: parts less than 2 high are always accepted. *)
Lemma small_krempe : forall j hts below, fits j -> given j hts below -> cone_h j < 2 -> shell_h j < 2 ->
  exists k, kegelkrempe (A := RA) (up j) (down j) 0 hts (cone j) = Ok k.
Proof.
  intros j hts below F GI H0 H1. destruct (proj1 (sharp_krempe j hts below F GI)) as (k & r & E & _); [|exists k; exact E].
  destruct F as (_ & _ & _ & B3 & B4).
  assert (G : forall h x : R, 0 < h < 2 -> Rabs (h * (Rround8 x - x)) < 1 / 10^8).
  { intros h x H. rewrite Rabs_mult, (Rabs_pos_eq h) by lra. pose proof (Rround8_err x) as E. assert (0 <= Rabs (Rround8 x - x)) by apply Rabs_pos. nra. }
  split; apply G; lra.
Qed.

(*@ C81_twice_refuted *)
(** C81, finding: if the cone is also given as the part below (as in the project's own test of from_dict), it is left as it was; the
    lower walls of the transition then lie on its walls. *)
Lemma cone_twice : forall j, fits j -> Rabs (cone_h j * (px (rounded (start j)) - px (start j))) < 1 / 10^8 -> Rabs (shell_h j * (px (rounded (stop j)) - px (stop j))) < 1 / 10^8 ->
  exists k, kegelkrempe (A := RA) (up j) (down j) 0 [shell j; cone j] (cone j) = Ok k /\
    k_unten k = Some (m_segs (cone j)) /\ In (Wall (foot j) (bend j)) (m_segs (cone j)) /\
    In (Wall (rounded (start j)) (bend j)) (k_segs k) /\ on_segment (foot j) (bend j) (start j).
Proof.
  intros j F H0 H1. assert (GI : given j [shell j; cone j] (Some (cone j))). { apply given_second. destruct F as (_ & _ & _ & B3 & _). cbn. lra. }
  destruct (proj1 (sharp_krempe j _ _ F GI) (conj H0 H1)) as (k & r & E & _ & _ & U & _ & _ & _ & _ & KS).
  exists k. split; [exact E|]. pose proof (cone_segs j F) as CS. split; [|split; [|split]].
  - rewrite U. cbn [option_map]. f_equal. rewrite CS. destruct F as ((A1 & A2 & A3 & A4 & A5 & A6 & A7 & A8 & A9) & _). unfold below_outline, joined.
    assert (P1 : rounded (@mkpt RA (m_h (cone j) + m_d0 (cone j) / 2) (m_v (cone j))) = foot j) by (apply (again_stored (foot j)); split; unfold foot; cbn [px py]; [apply d8_add|apply d8_sub]; auto).
    assert (P4 : rounded (@mkpt RA (m_h (cone j) - m_d0 (cone j) / 2) (m_v (cone j))) = mirror (axis j) (foot j)).
    { change (m_h (cone j)) with (axis j). change (m_d0 (cone j)) with (d_low j). change (m_v (cone j)) with (seam j - cone_h j). replace (axis j - d_low j / 2) with (2 * axis j - (axis j + d_low j / 2)) by ring. apply (again_stored (mirror (axis j) (foot j))). apply mirror_stored; auto. split; unfold foot; cbn [px py]; [apply d8_add|apply d8_sub]; auto. }
    cbv zeta. rewrite P1, P4. reflexivity.
  - rewrite CS. cbn. auto.
  - rewrite KS. left. reflexivity.
  - exists (1 - down j / cone_h j). pose proof F as (_ & _ & _ & B3 & _). pose proof (frac _ _ B3). split; [lra|]. unfold start, along, foot, bend. cbn [px py]. f_equal; eqR; ring.
Qed.

(*@ C81_tall_refuted *)
(** C81, finding (binary64): a cone of height 700 with diameters 1000 and 2000 under a shell of height 500; reaching down 100 and up 50 is refused
    with an AssertionError.  The same vessel in a unit 1000 times as large is accepted. *)
Lemma tall_refuted : forall L, let z k : @num (FA L) := nofZ k in let m k : @num (FA L) := ndec k 1000 in
  kegelkrempe (z 50%Z) (z 100%Z) (z 0%Z) [mantel (z 700%Z) (z 0%Z) (z 2000%Z) (z 2000%Z) (z 500%Z)] (mantel (z 0%Z) (z 0%Z) (z 1000%Z) (z 2000%Z) (z 700%Z)) = Err AssertionError /\
  exists k, kegelkrempe (m 50%Z) (m 100%Z) (m 0%Z) [mantel (m 700%Z) (m 0%Z) (m 2000%Z) (m 2000%Z) (m 500%Z)] (mantel (m 0%Z) (m 0%Z) (m 1000%Z) (m 2000%Z) (m 700%Z)) = Ok k.
Proof.
  intros L z m. split.
  - assert (H : match kegelkrempe (z 50%Z) (z 100%Z) (z 0%Z) [mantel (z 700%Z) (z 0%Z) (z 2000%Z) (z 2000%Z) (z 500%Z)] (mantel (z 0%Z) (z 0%Z) (z 1000%Z) (z 2000%Z) (z 700%Z)) with Err AssertionError => true | _ => false end = true) by (vm_compute; reflexivity).
    revert H. generalize (kegelkrempe (z 50%Z) (z 100%Z) (z 0%Z) [mantel (z 700%Z) (z 0%Z) (z 2000%Z) (z 2000%Z) (z 500%Z)] (mantel (z 0%Z) (z 0%Z) (z 1000%Z) (z 2000%Z) (z 700%Z))). intros [k|[]] H; try discriminate. reflexivity.
  - assert (H : match kegelkrempe (m 50%Z) (m 100%Z) (m 0%Z) [mantel (m 700%Z) (m 0%Z) (m 2000%Z) (m 2000%Z) (m 500%Z)] (mantel (m 0%Z) (m 0%Z) (m 1000%Z) (m 2000%Z) (m 700%Z)) with Ok _ => true | Err _ => false end = true) by (vm_compute; reflexivity).
    revert H. generalize (kegelkrempe (m 50%Z) (m 100%Z) (m 0%Z) [mantel (m 700%Z) (m 0%Z) (m 2000%Z) (m 2000%Z) (m 500%Z)] (mantel (m 0%Z) (m 0%Z) (m 1000%Z) (m 2000%Z) (m 700%Z))). intros [k|] H; [exists k; reflexivity|discriminate].
Qed.

(*@ C81_gap_refuted *)
(** C81, finding (binary64): a cone with the upper diameter 4 under a shell with the diameter 5 is accepted; the walls of the transition
    do not meet, its order() reports failure and its outline is not closed. *)
Lemma gap_refuted : forall L, let z k : @num (FA L) := nofZ k in exists k r,
  kegelkrempe (ndec 4 10) (ndec 3 10) (z 0%Z) [mantel (z 2%Z) (z 0%Z) (z 5%Z) (z 5%Z) (z 1%Z)] (mantel (z 1%Z) (z 0%Z) (z 2%Z) (z 4%Z) (z 1%Z)) = Ok k /\
  krempe_part k = Ok (false, r) /\ isclosed r = Ok false.
Proof.
  intros L z.
  assert (H : match kegelkrempe (ndec 4 10) (ndec 3 10) (z 0%Z) [mantel (z 2%Z) (z 0%Z) (z 5%Z) (z 5%Z) (z 1%Z)] (mantel (z 1%Z) (z 0%Z) (z 2%Z) (z 4%Z) (z 1%Z)) with
    Ok k => match krempe_part k with Ok (b, r) => negb b && match isclosed r with Ok b => negb b | _ => false end | _ => false end | Err _ => false end = true) by (vm_compute; reflexivity).
  revert H. generalize (kegelkrempe (ndec 4 10) (ndec 3 10) (z 0%Z) [mantel (z 2%Z) (z 0%Z) (z 5%Z) (z 5%Z) (z 1%Z)] (mantel (z 1%Z) (z 0%Z) (z 2%Z) (z 4%Z) (z 1%Z))).
  intros [k|] H; [|discriminate]. destruct (krempe_part k) as [[b r]|] eqn:E; [|discriminate].
  exists k, r. split; auto. destruct b; [discriminate|]. rewrite E. split; auto. destruct (isclosed r) as [[|]|]; auto; discriminate.
Qed.

(*@ex C81_example *)
(** Non-vacuity of C81: the vessel of the project's tests (cone 2 to 4, height 1, shell 4, height 1.5, transition 0.3 down and 0.4 up), with and without
    a part below. *)
Example krempe_example : let j := mkjoint 0 2 1 (3 / 2) 2 4 4 (3 / 10) (4 / 10) in
  fits j /\ (exists k, kegelkrempe (A := RA) (4 / 10) (3 / 10) 0 [shell j] (cone j) = Ok k) /\
  (exists k, kegelkrempe (A := RA) (4 / 10) (3 / 10) 0 [shell j; standzarge (A := RA) 0 0 4 4 2] (cone j) = Ok k).
Proof.
  intros j. assert (F : fits j).
  { unfold fits, j. cbn [axis seam cone_h shell_h d_low d_mid d_top down up].
    assert (D : forall (n : Z) (x : R), x * 10^8 = IZR n -> decimal8 x) by (intros n x E; exists n; rewrite <- E; field).
    split; [|lra]. repeat split; [apply (D 0%Z)|apply (D 200000000%Z)|apply (D 100000000%Z)|apply (D 150000000%Z)|apply (D 100000000%Z)|apply (D 200000000%Z)|apply (D 200000000%Z)|apply (D 30000000%Z)|apply (D 40000000%Z)]; lra. }
  split; auto. split.
  - apply (small_krempe j [shell j] None); auto; [constructor|cbn; lra..].
  - apply (small_krempe j [shell j; standzarge (A := RA) 0 0 4 4 2] (Some (standzarge (A := RA) 0 0 4 4 2))); auto; [constructor; cbn; lra|cbn; lra..].
Qed.

(*@ C81_refused *)
(** C81 (every arithmetic): with one or two parts, a cone that does not open upward, or a length that is not positive, is refused with an
    AssertionError; no or more than two parts as well; a radius that is neither positive nor zero makes it raise. *)
Lemma krempe_refused : forall (A : Arith) (h_oben h_unten r : @num A) (hts : list (mpart A)) (kegel : mpart A),
  ((length hts = 0)%nat \/ (2 < length hts)%nat \/ nltb (m_d0 kegel) (m_d1 kegel) = false \/ nltb n0 h_oben = false \/ nltb n0 h_unten = false ->
   kegelkrempe h_oben h_unten r hts kegel = Err AssertionError) /\
  (forall k, kegelkrempe h_oben h_unten r hts kegel = Ok k ->
    (1 <= length hts <= 2)%nat /\ nltb (m_d0 kegel) (m_d1 kegel) = true /\ nltb n0 h_oben = true /\ nltb n0 h_unten = true /\ (nltb n0 r = true \/ neqb r n0 = true)).
Proof.
  intros A h_oben h_unten r hts kegel.
  assert (L : length (by_height hts) = length hts) by (destruct hts as [|a [|b [|c l]]]; cbn [by_height]; try reflexivity; destruct (nltb _ _); reflexivity).
  assert (C : forall b, Nat.leb 1 (length hts) && Nat.leb (length hts) 2 = b -> if b then (1 <= length hts <= 2)%nat else (length hts = 0 \/ 2 < length hts)%nat).
  { intros [] E; [apply andb_true_iff in E as [E F]; apply Nat.leb_le in E, F; lia|apply andb_false_iff in E as [E|E]; apply Nat.leb_gt in E; lia]. }
  unfold kegelkrempe. rewrite L. specialize (C _ eq_refl). destruct (Nat.leb 1 (length hts) && Nat.leb (length hts) 2); cbn [assert_ bind].
  2: { split; [reflexivity|discriminate]. }
  assert (LA : exists o, last_of (by_height hts) = Ok o).
  { unfold last_of, last_opt. destruct (by_height hts) as [|x l]; [cbn [length] in L; lia|]. eexists; reflexivity. }
  destruct LA as (o & ->). cbn [bind].
  destruct (nltb (m_d0 kegel) (m_d1 kegel)) eqn:E1; cbn [assert_ bind]; [|split; [reflexivity|discriminate]].
  destruct (nltb n0 h_oben) eqn:E2; cbn [assert_ bind]; [|split; [reflexivity|discriminate]].
  destruct (nltb n0 h_unten) eqn:E3; cbn [assert_ bind]; [|split; [reflexivity|discriminate]].
  split; [intros [H|[H|[H|[H|H]]]]; try discriminate; lia|]. intros k H. repeat (split; [auto|]).
  unfold right_side in H. destruct (nltb n0 r); auto. destruct (neqb r n0); auto. discriminate.
Qed.
