(** The transition with a knuckle between a cone and a cylindrical shell. *)
From Coq Require Import Reals ZArith Lra Lia Bool List Psatz Permutation.
From Verif Require Import Base Arith ArithR MPoint MLine MPoly MHeap MVessel MKrempe Spec SpecHeap SpecKrempe PPoint PLine PPoly PTrig PShape PHeap PMore POrder PMake PVessel PHead PKrempe.
Import ListNotations.
Local Open Scope R_scope.
#[local] Existing Instance RA.

(** ** The angle of the cone *)
Lemma lean_spec : forall s h, 0 < s -> 0 < h -> let L := atan (s / h) in let N := sqrt (s ^ 2 + h ^ 2) in
  0 < L < PI / 2 /\ 0 < N /\ N ^ 2 = s ^ 2 + h ^ 2 /\ sin L = s / N /\ cos L = h / N.
Proof.
  intros s h S0 H0 L N. assert (X : 0 < s / h) by (apply Rdiv_lt_0_compat; auto).
  assert (L0 : 0 < L) by (unfold L; rewrite <- atan_0; apply atan_increasing; auto). assert (L1 : L < PI / 2) by (apply atan_bound).
  assert (P0 : 0 < s ^ 2 + h ^ 2) by nra. assert (N0 : 0 < N) by (apply sqrt_lt_R0; auto). assert (NN : N ^ 2 = s ^ 2 + h ^ 2) by (unfold N; rewrite pow2_sqrt; lra).
  assert (T : tan L = s / h) by apply atan_right_inv || (unfold L; apply tan_atan).
  assert (C0 : 0 < cos L) by (apply cos_gt_0; lra). assert (S1 : 0 < sin L) by (apply sin_gt_0; lra).
  assert (E : sin L * h = cos L * s). { assert (sin L = tan L * cos L) as -> by (unfold tan; field; lra). rewrite T. field. lra. }
  pose proof (sin2_cos2 L) as Q. unfold Rsqr in Q.
  assert (CC : cos L * N = h).
  { apply Rsqr_inj; [nra|lra|]. unfold Rsqr. replace (cos L * N * (cos L * N)) with (cos L * cos L * N ^ 2) by ring. rewrite NN.
    replace (cos L * cos L * (s ^ 2 + h ^ 2)) with ((cos L * s) * (cos L * s) + cos L * cos L * h ^ 2) by ring. rewrite <- E. transitivity ((sin L * sin L + cos L * cos L) * h ^ 2); [ring|]. rewrite Q. ring. }
  assert (SS : sin L * N = s). { apply (Rmult_eq_reg_r h); [|lra]. replace (sin L * N * h) with (sin L * h * N) by ring. rewrite E. replace (cos L * s * N) with (cos L * N * s) by ring. rewrite CC. ring. }
  repeat split; auto; [rewrite <- SS|rewrite <- CC]; field; lra.
Qed.
Lemma half_tan : forall L, 0 < L < PI / 2 -> tan (L / 2) * sin L = 1 - cos L /\ 0 < tan (L / 2).
Proof.
  intros L H. assert (C : 0 < cos (L / 2)) by (apply cos_gt_0; lra). assert (S : 0 < sin (L / 2)) by (apply sin_gt_0; lra). split; [|apply Rdiv_lt_0_compat; auto].
  replace (sin L) with (2 * sin (L / 2) * cos (L / 2)) by (rewrite <- sin_2a; f_equal; field).
  replace (cos L) with (1 - 2 * sin (L / 2) * sin (L / 2)) by (rewrite <- cos_2a_sin; f_equal; field). unfold tan. field. lra.
Qed.

(** ** The centre *)
Section Centre.
Variables (j : joint) (r : R).
Hypothesis RF : round_fits j r.
Let s := spread j. Let h := cone_h j. Let N := sqrt (s ^ 2 + h ^ 2). Let T := tangent j r. Let L := lean j.
Let xb := axis j + d_mid j / 2.
Lemma pos : 0 < s /\ 0 < h /\ 0 < r /\ 0 < shell_h j.
Proof. destruct RF as (F & _ & S & _ & _ & R0 & _). destruct F as (_ & _ & _ & B3 & B4). unfold s, h. lra. Qed.
Lemma cone_trig : 0 < L < PI / 2 /\ 0 < N /\ N ^ 2 = s ^ 2 + h ^ 2 /\ sin L = s / N /\ cos L = h / N.
Proof. destruct pos as (S0 & H0 & _). apply (lean_spec s h); auto. Qed.
Lemma T_spec : 0 < T /\ s * T = h * (r / cos L - r) /\ T * cos L <= h /\ T * h <= h * N /\ T * cos L = r * sin L - T.
Proof.
  destruct pos as (S0 & H0 & R0 & _). destruct cone_trig as (L0 & N0 & NN & SL & CL). destruct (half_tan L L0) as [H1 H2].
  destruct RF as (F & _ & _ & _ & _ & _ & _ & D & _). destruct F as (_ & _ & _ & B3 & _). fold T L in D.
  assert (TP : 0 < T) by (unfold T, tangent; apply Rmult_lt_0_compat; auto).
  assert (TS : T * sin L = r * (1 - cos L)) by (unfold T, tangent; rewrite <- H1; fold L; ring).
  assert (TC : T * cos L <= h) by (unfold h; lra).
  assert (C0 : 0 < cos L) by (apply cos_gt_0; lra). assert (CE : cos L * N = h) by (rewrite CL; field; lra). assert (SE : sin L * N = s) by (rewrite SL; field; lra).
  split; auto. split; [|split; [auto|split]].
  - rewrite <- SE, <- CE. replace (sin L * N * T) with (N * (T * sin L)) by ring. rewrite TS. field. lra.
  - rewrite <- CE at 1. replace (T * (cos L * N)) with (T * cos L * N) by ring. nra.
  - assert (S0' : 0 < sin L) by (apply sin_gt_0; lra). apply (Rmult_eq_reg_r (sin L)); [|lra].
    replace (T * cos L * sin L) with (T * sin L * cos L) by ring. replace ((r * sin L - T) * sin L) with (r * (sin L * sin L) - T * sin L) by ring. rewrite TS.
    pose proof (sin2_cos2 L) as Q. unfold Rsqr in Q. replace (sin L * sin L) with (1 - cos L * cos L) by lra. ring.
Qed.
(** where the moved walls meet, for small errors of the moved wall *)
Lemma centre_err : forall e0 e1 u, Rabs e0 <= 5 / 10^9 -> Rabs e1 <= 5 / 10^9 -> u * (s + e1 - e0) = h * (r / cos L - r - e1) ->
  s * Rabs (u - T) <= 151 / 10^10 * N /\ Rabs (u - T) <= 16 / 10^7.
Proof.
  intros e0 e1 u E0 E1 U. destruct pos as (S0 & H0 & R0 & _). destruct cone_trig as (L0 & N0 & NN & SL & CL). destruct T_spec as (TP & TE & TC & TH & _).
  destruct RF as (_ & _ & S3 & SH & _). fold s h in S3, SH.
  assert (HN : h <= N) by nra. assert (TN : T <= N) by (apply (Rmult_le_reg_r h); [auto|rewrite (Rmult_comm N); auto]).
  assert (D : (u - T) * (s + e1 - e0) = - h * e1 - T * (e1 - e0)) by (replace ((u - T) * (s + e1 - e0)) with (u * (s + e1 - e0) - s * T - T * (e1 - e0)) by ring; rewrite U, TE; ring).
  assert (B : Rabs (- h * e1 - T * (e1 - e0)) <= (h + 2 * T) * (5 / 10^9)).
  { apply Rabs_le. apply Rabs_le_inv in E0. apply Rabs_le_inv in E1. nra. }
  rewrite <- D, Rabs_mult in B. apply Rabs_le_inv in E0. apply Rabs_le_inv in E1. rewrite (Rabs_right (s + e1 - e0)) in B by lra.
  set (a := Rabs (u - T)) in *. assert (A0 : 0 <= a) by apply Rabs_pos.
  assert (B2 : a * (s * (1 - 1 / 10^5)) <= 3 * N * (5 / 10^9)) by nra.
  assert (C1 : s * a <= 151 / 10^10 * N) by nra. split; auto.
  assert (NS : N <= 101 * s) by (apply Rsqr_incr_0_var; [unfold Rsqr; nra|nra]). nra.
Qed.
End Centre.

(** ** The arc *)
Lemma arc_eval : forall j r, round_fits j r ->
  exists c h P v0 vs, krempe_arc (A := RA) r (shell j) (cone j) = Ok (h, P) /\ touching j r c /\ arc_points j r c (v0 :: vs) /\
    view h (hsegs P) = chain (v0 :: vs) /\ one_object_per_place h (hsegs P) /\ (forall o, In o (objects (hsegs P)) -> (o < 4)%nat) /\ hpurged P = true /\ stored c.
Proof.
  intros j r RF. destruct (pos j r RF) as (S0 & H0 & R0 & H1). destruct (cone_trig j r RF) as (L0 & N0 & NN & SL & CL). destruct (T_spec j r RF) as (TP & TE & TC & TH & TX).
  pose proof (centre_err j r RF) as CE. pose proof RF as (F & DT & S3 & SH & D8 & RB & CH & _).
  pose proof (cone_segs j F) as CS. pose proof (shell_segs j F) as SS. pose proof F as ((A1 & A2 & A3 & A4 & A5 & A6 & A7 & A8 & A9) & B1 & B2 & B3 & B4).
  set (s := spread j) in *. set (h := cone_h j) in *. set (N := sqrt (s ^ 2 + h ^ 2)) in *. set (T := tangent j r) in *. set (L := lean j) in *.
  assert (C0 : 0 < cos L) by (apply cos_gt_0; lra). pose proof PI_RGT_0 as PI0.
  unfold krempe_arc. change (m_h (shell j)) with (axis j). change (m_v (shell j)) with (seam j).
  assert (PA : Point_new (A := RA) (axis j) (seam j) = @mkpt RA (axis j) (seam j)) by (apply (again_stored (@mkpt RA (axis j) (seam j))); split; auto).
  assert (D81 : decimal8 (seam j + 1)) by (apply d8_add; auto; exists (10 ^ 8)%Z; field_simplify; lra).
  assert (PB : Point_new (A := RA) (axis j) (@nadd RA (seam j) n1) = @mkpt RA (axis j) (seam j + 1)) by (apply (again_stored (@mkpt RA (axis j) (seam j + 1))); split; auto).
  rewrite PA, PB. set (ax := LineSegment _ _). rewrite SS, CS. cbn [outline get nth_error bind].
  assert (AN : forall (u v : R) (a b : pt RA) c, 0 < v -> px b - px a = u -> py b - py a = v -> angle_between_lines (A := RA) ax (mkseg c a b) = Ok (acos (v / sqrt (u ^ 2 + v ^ 2)) * (180 / PI))).
  { intros u v a b c V0 E1 E2. destruct (angle_ok ax (mkseg c a b)) as [-> _].
    - intros E. apply (f_equal py) in E. cbn in E. lra.
    - intros E. cbn in E. rewrite E in E2. lra.
    - do 4 f_equal. 
      + unfold dotproduct, delta_x, delta_y, ax. cbn [si sj LineSegment px py]. ra. rewrite E1, E2. ring.
      + unfold norm, delta_x, delta_y, ax. cbn [si sj LineSegment px py]. ra. rewrite E1, E2. 
        match goal with |- sqrt ?x * sqrt ?y = _ => replace x with 1 by ring; replace y with (u ^ 2 + v ^ 2) by ring end. rewrite sqrt_1. ring. }
  assert (WO : angle_between_lines (A := RA) ax (Wall (bend j) (head j)) = Ok 0).
  { unfold Wall. rewrite (AN 0 (shell_h j)); [|auto|unfold bend, head; cbn [px]; rewrite DT; eqR; ring|unfold bend, head; cbn [py]; eqR; ring].
    replace (shell_h j / sqrt (0 ^ 2 + shell_h j ^ 2)) with 1; [rewrite acos_1; f_equal; eqR; ring|]. replace (0 ^ 2 + shell_h j ^ 2) with (shell_h j * shell_h j) by ring. rewrite sqrt_square by lra. field. lra. }
  assert (WU : angle_between_lines (A := RA) ax (Wall (foot j) (bend j)) = Ok (L * (180 / PI))).
  { unfold Wall. rewrite (AN s h); [|auto|unfold foot, bend, s, spread; cbn [px]; eqR; field|unfold foot, bend, h; cbn [py]; eqR; ring].
    fold N. rewrite <- CL, acos_cos by lra. reflexivity. }
  rewrite WO. cbn [bind].
  assert (DO : pdiv (A := RA) (nopp r) (ncos (nradians (A := RA) 0)) = Ok (- r)).
  { unfold pdiv, nradians. ra. replace (0 * (PI / 180)) with 0 by ring. rewrite cos_0. destruct (Reqb 1 0) eqn:E; [apply Reqb_true in E; lra|]. f_equal. field. }
  rewrite DO. cbn [bind]. rewrite WU. cbn [bind].
  assert (DU : pdiv (A := RA) (nopp r) (ncos (nradians (A := RA) (L * (180 / PI)))) = Ok (- r / cos L)).
  { unfold pdiv, nradians. ra. replace (L * (180 / PI) * (PI / 180)) with L by (field; lra). destruct (Reqb (cos L) 0) eqn:E; [apply Reqb_true in E; lra|]. reflexivity. }
  rewrite DU. cbn [bind].
  destruct (corners_stored j F) as (SF & SB & SH2).
  assert (D0 : decimal8 0) by (exists 0%Z; lra).
  set (lo := seg_move (A := RA) (- r) n0 (Wall (bend j) (head j))).
  assert (LO : lo = Wall (translate (- r) 0 (bend j)) (translate (- r) 0 (head j))).
  { unfold lo, seg_move. cbn [sc si sj Wall]. change (@n0 RA) with 0. rewrite !move_pt_exact; auto; apply d8_opp; auto. }
  set (dx := - r / cos L) in *.
  set (lu := seg_move (A := RA) dx n0 (Wall (foot j) (bend j))).
  set (x0 := Rround8 (axis j + d_low j / 2 + dx)). set (x1 := Rround8 (axis j + d_mid j / 2 + dx)).
  assert (LU : lu = Wall (@mkpt RA x0 (seam j - h)) (@mkpt RA x1 (seam j))).
  { unfold lu, seg_move, move_pt. cbn [sc si sj Wall]. change (@n0 RA) with 0. unfold foot, bend. cbn [px py]. rewrite !Pn. unfold Wall. f_equal; unfold x0, x1; ra; f_equal; rewrite Rplus_0_r; apply d8_id; auto. apply d8_sub; auto. }
  rewrite LO, LU. clearbody lo lu.
  pose proof (Rround8_err (axis j + d_low j / 2 + dx)) as E0. fold x0 in E0. pose proof (Rround8_err (axis j + d_mid j / 2 + dx)) as E1. fold x1 in E1.
  set (e0 := x0 - (axis j + d_low j / 2 + dx)) in *. set (e1 := x1 - (axis j + d_mid j / 2 + dx)) in *.
  assert (X01 : x1 - x0 = s + e1 - e0) by (unfold e0, e1, s, spread; lra).
  assert (E0' : Rabs e0 <= 5 / 10^9) by (eapply Rle_trans; [exact E0|lra]). assert (E1' : Rabs e1 <= 5 / 10^9) by (eapply Rle_trans; [exact E1|lra]).
  assert (XP : 0 < x1 - x0). { rewrite X01. apply Rabs_le_inv in E0'. apply Rabs_le_inv in E1'. lra. }
  set (lu' := Wall (@mkpt RA x0 (seam j - h)) (@mkpt RA x1 (seam j))). set (lo' := Wall (translate (- r) 0 (bend j)) (translate (- r) 0 (head j))).
  destruct (intersection_point_spec lu' lo') as [_ IP]. destruct IP as (q & EQ & (t1 & Q1) & (t2 & Q2) & _).
  { apply is_parallel_false. unfold crossproduct, delta_x, delta_y, lu', lo', Wall, translate, bend, head. cbn [si sj px py]. ra. rewrite DT.
    assert (0 < shell_h j * (x1 - x0)) by nra. nra. }
  assert (QX : px q = axis j + d_mid j / 2 - r). { rewrite Q2. unfold along, lo', Wall, translate, bend, head. cbn [si sj px py]. rewrite DT. eqR. ring. }
  set (u := py q - seam j).
  assert (QU : u * (s + e1 - e0) = h * (r / cos L - r - e1)).
  { rewrite <- X01. assert (QX1 : px q = x0 + t1 * (x1 - x0)) by (rewrite Q1; reflexivity). assert (QY1 : py q = seam j - h + t1 * (seam j - (seam j - h))) by (rewrite Q1; reflexivity).
    unfold u. rewrite QY1. replace ((seam j - h + t1 * (seam j - (seam j - h)) - seam j) * (x1 - x0)) with (h * (t1 * (x1 - x0) - (x1 - x0))) by ring. f_equal. rewrite QX in QX1.
    assert (DXE : dx = - (r / cos L)) by (unfold dx; field; lra). unfold e1. lra. }
  destruct (CE e0 e1 u E0' E1' QU) as [U1 U2]. fold s N T in U1. fold T in U2.
  rewrite EQ. cbn [bind].
  set (c := Point_new (A := RA) (px q) (py q)).
  assert (SC : stored c) by (apply stored_Pn).
  assert (CX : px c = axis j + d_mid j / 2 - r). { unfold c. rewrite Pn. cbn [px]. rewrite QX. apply d8_id. apply d8_sub; auto. apply d8_add; auto. }
  assert (CY : Rabs (py c - py q) <= 5 / 10^9) by (unfold c; rewrite Pn; cbn [py]; eapply Rle_trans; [apply Rround8_err|lra]).
  assert (TOU : touching j r c).
  { split; [exact CX|]. split.
    - unfold line_dist. replace (dist (foot j) (bend j)) with N by (unfold N, dist, foot, bend, s, spread, h; cbn [px py]; f_equal; field).
      unfold foot, bend. cbn [px py]. rewrite CX. 
      replace ((axis j + d_mid j / 2 - (axis j + d_low j / 2)) * (py c - (seam j - cone_h j)) - (seam j - (seam j - cone_h j)) * (axis j + d_mid j / 2 - r - (axis j + d_low j / 2))) with (s * (py c - seam j) + h * r) by (unfold s, spread, h; field).
      assert (NR : N * r = s * T + h * r) by (rewrite TE, <- (Rmult_comm r); assert (HN : h = cos L * N) by (rewrite CL; field; lra); rewrite HN; field; lra).
      assert (BB : Rabs (s * (py c - seam j) + h * r - N * r) <= 3 / 10^8 * N).
      { replace (s * (py c - seam j) + h * r - N * r) with (s * (u - T) + s * (py c - py q)) by (rewrite NR; unfold u; ring).
        eapply Rle_trans; [apply Rabs_triang|]. rewrite !Rabs_mult, (Rabs_right s) by lra. assert (s <= N) by nra. assert (0 <= Rabs (py c - py q)) by apply Rabs_pos. nra. }
      apply Rabs_le_inv in BB. assert (NRB : 0 < N * r) by (apply Rmult_lt_0_compat; auto).
      assert (3 / 10^8 * N <= N * r).
      { assert (1 / 10^4 <= r). { pose proof (SIN_bound (L / 6)) as SBD. nra. } nra. }
      rewrite (Rabs_right (s * (py c - seam j) + h * r)) by lra. replace ((s * (py c - seam j) + h * r) / N - r) with ((s * (py c - seam j) + h * r - N * r) / N) by (field; lra).
      unfold Rdiv at 1. rewrite Rabs_mult, (Rabs_right (/ N)) by (left; apply Rinv_0_lt_compat; auto). apply (Rmult_le_reg_r N); auto. replace (Rabs (s * (py c - seam j) + h * r - N * r) * / N * N) with (Rabs (s * (py c - seam j) + h * r - N * r)) by (field; lra).
      apply Rabs_le. lra.
    - fold T. replace (py c - (seam j + T)) with ((u - T) + (py c - py q)) by (unfold u; ring). eapply Rle_trans; [apply Rabs_triang|]. lra. }
  change (@nofZ RA 360) with 360.
  assert (W3 : 0 < L * (180 / PI) < 90).
  { split; [apply Rmult_lt_0_compat; [lra|apply Rdiv_lt_0_compat; lra]|]. apply (Rmult_lt_reg_r PI); auto. replace (L * (180 / PI) * PI) with (180 * L) by (field; lra). lra. }
  destruct (arc_full (fun _ => c) 0 (px c) (py c) r (360 - L * (180 / PI)) (360 - 0) 3 false) as (h' & P & v0 & vs & EA & LV & NODE & VW & _ & _ & ONE & OBJ & PUR); auto; try apply SC; try lia.
  { lra. }
  { replace ((360 - 0 - (360 - L * (180 / PI))) / INR 3 * PI / 360) with (L / 6) by (cbn; field; lra). eapply Rle_trans; [|exact CH]. lra. }
  { left. replace ((360 - 0 - (360 - L * (180 / PI))) * PI / 360) with (L / 2) by (field; lra). eapply Rle_trans; [|apply Rmult_le_compat_l; [lra|apply (sin_incr_1 (L / 6) (L / 2)); lra]]. eapply Rle_trans; [|exact CH]. lra. }
  exists c, h', P, v0, vs. change (@nsub RA) with Rminus. split; [exact EA|]. split; [exact TOU|]. split; [|split; [exact VW|split; [exact ONE|split; [|split; [exact PUR|exact SC]]]]].
  - split; [cbn; rewrite LV; reflexivity|]. intros k p Hk a. destruct (NODE k p Hk) as (D & _ & SP). split; auto. apply dist_within in D.
    replace (circle_pt (px c) (py c) r (360 - L * (180 / PI) + INR k * (360 - 0 - (360 - L * (180 / PI))) / INR 3)) with (@mkpt RA (px c + r * cos a) (py c - r * sin a)) in D; [exact D|].
    unfold circle_pt, a. replace ((360 - L * (180 / PI) + INR k * (360 - 0 - (360 - L * (180 / PI))) / INR 3) * PI / 180) with (- ((1 - INR k / 3) * L) + 2 * INR 1 * PI) by (cbn [INR]; field; lra).
    rewrite cos_period, sin_period, cos_neg, sin_neg. f_equal. change (@eq R (py c - r * sin ((1 - INR k / 3) * L)) (py c + r * - sin ((1 - INR k / 3) * L))). ring.
  - intros o Io. specialize (OBJ o Io). lia.
Qed.

(** ** The right side and its mirror image *)
Lemma arc_height : forall j r c v0 v1 v2 v3, round_fits j r -> touching j r c -> arc_points j r c [v0; v1; v2; v3] ->
  let T := tangent j r in let L := lean j in
  (forall p, In p [v0; v1; v2; v3] -> stored p /\ seam j - T * cos L - 3 / 10^6 <= py p <= seam j + T + 3 / 10^6 /\ axis j + 1 / 10^5 - 3 / 10^8 <= px p) /\
  Rabs (seam j - py v0) <= T * cos L + 3 / 10^6 /\ Rabs (seam j - py v3) <= T + 3 / 10^6 /\ ForallOrdPairs far [v0; v1; v2; v3].
Proof.
  intros j r c v0 v1 v2 v3 RF (CX & _ & CY) (_ & AP) T L. destruct (pos j r RF) as (S0 & H0 & R0 & H1). destruct (cone_trig j r RF) as (L0 & N0 & _ & _ & _). destruct (T_spec j r RF) as (TP & _ & TC & _ & TX).
  fold L in L0, TC, TX, AP. fold T in TP, TC, TX, CY. pose proof RF as (F & DT & S3 & SH & D8 & RB & CH & _). fold L in CH. apply Rabs_le_inv in CY.
  assert (C0 : 0 < cos L) by (apply cos_gt_0; lra). assert (SL : 0 < sin L) by (apply sin_gt_0; lra).
  assert (PT : forall k p, nth_error [v0; v1; v2; v3] k = Some p -> stored p /\ seam j - T * cos L - 3 / 10^6 <= py p <= seam j + T + 3 / 10^6 /\ axis j + 1 / 10^5 - 3 / 10^8 <= px p).
  { intros k p Hk. assert (K3 : INR k <= 3). { assert (k < 4)%nat by (change 4%nat with (length [v0; v1; v2; v3]); apply nth_error_Some; congruence). replace 3 with (INR 3) by (cbn; lra). apply le_INR. lia. }
    pose proof (pos_INR k) as K0. destruct (AP k p Hk) as ((W1 & W2) & SP). split; auto. cbn [px py] in W1, W2. apply Rabs_le_inv in W1. apply Rabs_le_inv in W2. set (a := (1 - INR k / 3) * L) in *.
    assert (A01 : 0 <= a <= L) by (unfold a; nra). assert (SA : 0 <= sin a <= sin L) by (split; [apply sin_ge_0; lra|apply sin_incr_1; lra]). assert (CA : 0 <= cos a) by (apply cos_ge_0; lra).
    rewrite CX in W1. split; [|nra]. split; nra. }
  split; [|split; [|split]].
  - intros p Ip. apply In_nth_error in Ip as (k & Hk). eapply PT; eauto.
  - destruct (AP 0%nat v0 eq_refl) as ((_ & W2) & _). cbn [py INR] in W2. replace ((1 - 0 / 3) * L) with L in W2 by field. apply Rabs_le_inv in W2. apply Rabs_le. split; nra.
  - destruct (AP 3%nat v3 eq_refl) as ((_ & W2) & _). cbn [py INR] in W2. replace ((1 - (1 + 1 + 1) / 3) * L) with 0 in W2 by field. rewrite sin_0 in W2. apply Rabs_le_inv in W2. apply Rabs_le. lra.
  - assert (FF : forall k l p q, (k < l < 4)%nat -> nth_error [v0; v1; v2; v3] k = Some p -> nth_error [v0; v1; v2; v3] l = Some q -> far p q).
    { intros k l p q KL Hp Hq. destruct (AP k p Hp) as (W1 & _). destruct (AP l q Hq) as (W2 & _).
      set (ang := fun n : nat => 360 - (1 - INR n / 3) * (L * (180 / PI))).
      assert (CP : forall n, @mkpt RA (px c + r * cos ((1 - INR n / 3) * L)) (py c - r * sin ((1 - INR n / 3) * L)) = circle_pt (px c) (py c) r (ang n)).
      { intros n. unfold circle_pt, ang. pose proof PI_RGT_0. replace ((360 - (1 - INR n / 3) * (L * (180 / PI))) * PI / 180) with (- ((1 - INR n / 3) * L) + 2 * INR 1 * PI) by (cbn [INR]; field; lra).
        rewrite cos_period, sin_period, cos_neg, sin_neg. f_equal. change (@eq R (py c - r * sin ((1 - INR n / 3) * L)) (py c + r * - sin ((1 - INR n / 3) * L))). ring. }
      rewrite CP in W1, W2. pose proof (within_dist1 _ _ (15 / 10^9) ltac:(lra) W1) as D1. pose proof (within_dist1 _ _ (15 / 10^9) ltac:(lra) W2) as D2.
      pose proof (chord_at (px c) (py c) r (ang k) (ang l) ltac:(lra)) as CD.
      assert (AE : (ang l - ang k) * PI / 360 = INR (l - k) * (L / 6)) by (unfold ang; rewrite minus_INR by lia; pose proof PI_RGT_0; field; lra). rewrite AE in CD.
      assert (LK : 1 <= INR (l - k) <= 3) by (split; [apply (le_INR 1); lia|replace 3 with (INR 3) by (cbn; lra); apply le_INR; lia]).
      assert (SK : sin (L / 6) <= sin (INR (l - k) * (L / 6))) by (apply sin_incr_1; nra).
      assert (SP : 0 <= sin (INR (l - k) * (L / 6))) by (eapply Rle_trans; [|exact SK]; apply sin_ge_0; lra). rewrite Rabs_right in CD by lra.
      apply dist_far. pose proof (dist_triangle (circle_pt (px c) (py c) r (ang k)) p (circle_pt (px c) (py c) r (ang l))) as T1. pose proof (dist_triangle p q (circle_pt (px c) (py c) r (ang l))) as T2. rewrite (PTri.dist_sym _ p) in T1. nra. }
    repeat (constructor; [repeat (constructor; [match goal with |- far ?a ?b => first [apply (FF 0%nat 1%nat); [lia|reflexivity|reflexivity]|apply (FF 0%nat 2%nat); [lia|reflexivity|reflexivity]|apply (FF 0%nat 3%nat); [lia|reflexivity|reflexivity]|apply (FF 1%nat 2%nat); [lia|reflexivity|reflexivity]|apply (FF 1%nat 3%nat); [lia|reflexivity|reflexivity]|apply (FF 2%nat 3%nat); [lia|reflexivity|reflexivity]] end|]); try constructor|]). constructor.
Qed.
(** Two points added at the ends of a chain *)
Lemma extend_mirror : forall (x : R) (h : heap RA) P (v0 v1 v2 v3 q0 q1 : pt RA), decimal8 x ->
  view h (hsegs P) = chain [v0; v1; v2; v3] -> one_object_per_place h (hsegs P) -> (forall o, In o (objects (hsegs P)) -> (o < 4)%nat) -> hpurged P = true ->
  (forall p, In p [v0; v1; v2; v3] -> stored p) -> stored q0 -> stored q1 -> ~ In q0 [v0; v1; v2; v3] -> ~ In q1 [v0; v1; v2; v3] -> q0 <> q1 ->
  exists h' P', extend (A := RA) (h, P) (Some q0) (Some q1) = Ok (h', P') /\ view h' (hsegs P') = chain [q0; v0; v1; v2; v3; q1] /\
    let y := mirror_vertical (A := RA) x h' P' in view (fst y) (hsegs (snd y)) = chain (map (mirror x) [q0; v0; v1; v2; v3; q1]).
Proof.
  intros x h [l b] v0 v1 v2 v3 q0 q1 DX V ONE OBJ PUR ST S0 S1 N0 N1 N01. cbn [hsegs hpurged] in *. subst b.
  destruct l as [|[c1 i1 j1] [|[c2 i2 j2] [|[c3 i3 j3] [|? ?]]]]; try discriminate. cbn in V. injection V as C1 I1 J1 C2 I2 J2 C3 I3 J3. subst c1 c2 c3.
  set (h' := halloc (A := RA) (halloc (A := RA) h 4 [q1]) 5 [q0]).
  set (l' := [mkh CLineSegment 5 i1; mkh CLineSegment i1 j1; mkh CLineSegment i2 j2; mkh CLineSegment i3 j3; mkh CLineSegment j3 4]).
  exists h', (mkhp l' true). split; [reflexivity|].
  assert (LT : forall o, In o [i1; j1; i2; j2; i3; j3] -> (o < 4)%nat) by (intros o Io; apply OBJ; exact Io).
  assert (H4 : h' 4%nat = q1) by reflexivity. assert (H5 : h' 5%nat = q0) by reflexivity.
  assert (HO : forall o, (o < 4)%nat -> h' o = h o) by (intros o Lo; unfold h'; rewrite !halloc_out by lia; reflexivity).
  assert (VV : view h' l' = chain [q0; v0; v1; v2; v3; q1]).
  { unfold view, l', seg_view. cbn [map hc hi hj]. rewrite H4, H5, !HO by (apply LT; cbn; tauto). rewrite I1, J1, I2, J2, I3, J3. reflexivity. }
  split; [exact VV|].
  assert (OO : forall o, In o (objects l') -> o = 4%nat \/ o = 5%nat \/ (In o [i1; j1; i2; j2; i3; j3] /\ In (h' o) [v0; v1; v2; v3])).
  { intros o Io. cbn in Io. decompose [or] Io; try contradiction; subst o; auto; right; right; (split; [cbn; tauto|rewrite HO by (apply LT; cbn; tauto); rewrite ?I1, ?J1, ?I2, ?J2, ?I3, ?J3; cbn; tauto]). }
  assert (ONE' : one_object_per_place h' l').
  { intros a c Ia Ic E. destruct (OO a Ia) as [->|[->|[A1 A2]]], (OO c Ic) as [->|[->|[B1 B2]]]; auto.
    - exfalso. rewrite H4, H5 in E. auto.
    - exfalso. rewrite H4 in E. rewrite <- E in B2. auto.
    - exfalso. rewrite H4, H5 in E. auto.
    - exfalso. rewrite H5 in E. rewrite <- E in B2. auto.
    - exfalso. rewrite H4 in E. rewrite E in A2. auto.
    - exfalso. rewrite H5 in E. rewrite E in A2. auto.
    - rewrite !HO in E by (apply LT; auto). apply ONE; auto. }
  pose proof (transform_fit (mirror_pt (A := RA) x) h' (mkhp l' true) eq_refl ONE') as TF. cbn [hsegs] in TF.
  unfold mirror_vertical. destruct (transform (mirror_pt (A := RA) x) h' (mkhp l' true)) as [h2 P2]. destruct TF as (-> & V2 & _). cbn [fst snd hsegs].
  rewrite V2, VV. unfold chain. cbn [pairs map combine tl]. unfold seg_image. cbn [sc si sj LineSegment fst snd].
  rewrite !mirror_pt_exact by (auto; apply ST; cbn; tauto). reflexivity.
Qed.
Lemma round_side : forall j r, round_fits j r -> let q0 := rounded (start j) in let q1 := stop j in let m := mirror (axis j) in
  exists c v0 v1 v2 v3 h P, touching j r c /\ arc_points j r c [v0; v1; v2; v3] /\ right_side (A := RA) (up j) (down j) r (shell j) (cone j) = Ok (h, P) /\
    view h (hsegs P) = chain [q0; v0; v1; v2; v3; q1] /\
    let y := mirror_vertical (A := RA) (axis j) h P in view (fst y) (hsegs (snd y)) = chain (map m [q0; v0; v1; v2; v3; q1]).
Proof.
  intros j r RF q0 q1 m. destruct (arc_eval j r RF) as (c & h & P & v0 & vs & EA & TO & AP & V & ONE & OBJ & PUR & SC).
  destruct vs as [|v1 [|v2 [|v3 [|? ?]]]]; try (destruct AP as [AP _]; discriminate).
  destruct (arc_height j r c v0 v1 v2 v3 RF TO AP) as (PT & H0 & H3 & _). pose proof RF as (F & DT & S3 & SH & D8 & RB & CH & U1 & U2).
  destruct (cut_ends j F) as (Q0 & Q1 & C0 & C1). pose proof F as ((A1 & A2 & A3 & A4 & A5 & A6 & A7 & A8 & A9) & B1 & B2 & B3 & B4).
  destruct (T_spec j r RF) as (TP & _).
  assert (ST1 : stored (stop j)).
  { destruct (stop_y j F) as [Y X]. split; [rewrite X, DT|rewrite Y; apply d8_add; auto]. replace (axis j + d_mid j / 2 + (d_mid j - d_mid j) / 2 * (up j / shell_h j)) with (axis j + d_mid j / 2) by (field; lra). apply d8_add; auto. }
  assert (RS : rounded (stop j) = q1) by (apply (again_stored (stop j)); auto). rewrite RS in Q1, C1. fold q0 in Q0, C0.
  assert (Y0 : py q0 = seam j - down j) by (rewrite Q0; reflexivity). assert (Y1 : py q1 = seam j + up j) by (rewrite Q1; reflexivity).
  destruct (extend_mirror (axis j) h P v0 v1 v2 v3 q0 q1) as (h' & P' & EX & VX & MX); auto.
  { intros p Ip. apply PT; auto. } { apply rounded_stored. }
  { intros Ip. destruct (PT _ Ip) as (_ & Yp & _). rewrite Y0 in Yp. lra. } { intros Ip. destruct (PT _ Ip) as (_ & Yp & _). rewrite Y1 in Yp. lra. }
  { intros E. rewrite E in Y0. lra. }
  exists c, v0, v1, v2, v3, h', P'. split; auto. split; auto. split; [|auto].
  unfold right_side. replace (@nltb RA n0 r) with true by (symmetry; apply Rltb_true; unfold n0; cbn; lra).
  rewrite EA. cbn [bind fst snd]. rewrite V. change (first_point (chain [v0; v1; v2; v3])) with (@Ok (pt RA) v0). change (last_point (chain [v0; v1; v2; v3])) with (@Ok (pt RA) v3). cbn [bind].
  change (m_v (shell j)) with (seam j). ra. 
  replace (Rltb (Rabs (seam j - py v0)) (down j)) with true by (symmetry; apply Rltb_true; lra).
  replace (Rltb (Rabs (seam j - py v3)) (up j)) with true by (symmetry; apply Rltb_true; lra).
  rewrite !nmax_R, !Rmax_left by lra. 
  match goal with |- context [@cut_point RA ?a (cone j) ?b] => change (@cut_point RA a (cone j) b) with (@cut_point RA (seam j) (cone j) (Some (- down j))) end. rewrite C0. cbn [bind].
  match goal with |- context [@cut_point RA ?a (shell j) ?b] => change (@cut_point RA a (shell j) b) with (@cut_point RA (seam j) (shell j) (Some (up j))) end. rewrite C1. cbn [bind]. exact EX.
Qed.

Lemma far_separated : forall l, ForallOrdPairs far l -> separated l /\ NoDup l.
Proof.
  intros l H. assert (NF : forall p q, far p q -> Rabs (px p - px q) < 1 / 10^5 -> Rabs (py p - py q) < 1 / 10^5 -> False) by (intros p q [D|D] B1 B2; lra).
  induction H as [|p l HF HP [IH1 IH2]]; [split; [intros p q []|constructor]|]. rewrite Forall_forall in HF. split.
  - intros a b [<-|Ia] [<-|Ib] D1 D2; auto; exfalso.
    + exact (NF _ _ (HF _ Ib) D1 D2).
    + exact (NF _ _ (far_sym _ _ (HF _ Ia)) D1 D2).
  - constructor; auto. intros I. apply (NF p p (HF _ I)); rewrite Rminus_diag_eq, Rabs_R0 by auto; lra.
Qed.
Lemma mirror_separated : forall x l, separated l -> NoDup l -> (forall p, In p l -> x + 1 / 10^5 / 2 <= px p) -> separated (l ++ rev (map (mirror x) l)) /\ NoDup (l ++ rev (map (mirror x) l)).
Proof.
  intros x l SEP ND X.
  assert (IM : forall p, In p (rev (map (mirror x) l)) -> exists q, In q l /\ p = mirror x q) by (intros p Ip; apply in_rev in Ip; apply in_map_iff in Ip as (q & <- & Iq); eauto).
  split.
  - intros p q Ip Iq D1 D2. apply in_app_iff in Ip as [Ip|Ip], Iq as [Iq|Iq].
    + auto.
    + exfalso. apply IM in Iq as (q' & Iq & ->). specialize (X _ Ip) as X1. specialize (X _ Iq) as X2. cbn [mirror px] in D1. apply Rabs_def2 in D1. lra.
    + exfalso. apply IM in Ip as (p' & Ip & ->). specialize (X _ Ip) as X1. specialize (X _ Iq) as X2. cbn [mirror px] in D1. apply Rabs_def2 in D1. lra.
    + apply IM in Ip as (p' & Ip & ->). apply IM in Iq as (q' & Iq & ->). f_equal. cbn [mirror px py] in D1, D2. apply SEP; auto. rewrite <- Rabs_Ropp. replace (- (px p' - px q')) with (2 * x - px p' - (2 * x - px q')) by (eqR; ring). exact D1.
  - assert (NDM : NoDup (rev (map (mirror x) l))).
    { apply NoDup_rev. apply FinFun.Injective_map_NoDup; auto. intros a b E. rewrite <- (mirror_mirror x a), E. apply mirror_mirror. }
    assert (NDA : forall a b : list (pt RA), NoDup a -> NoDup b -> (forall p, In p a -> In p b -> False) -> NoDup (a ++ b)).
    { intros a b Na Nb NI. induction Na as [|p a Hp Na IH]; [exact Nb|]. cbn [app]. constructor; [|apply IH; intros q Iq; apply NI; right; auto]. intros I. apply in_app_iff in I as [I|I]; [auto|]. apply (NI p); [left; auto|auto]. }
    apply NDA; auto. intros p Ip Iq. apply IM in Iq as (q' & Iq & ->). specialize (X _ Ip) as X1. specialize (X _ Iq) as X2. cbn [mirror px] in X1. lra.
Qed.
(*@ C82_round *)
(** C82: the transition with a knuckle of radius r between a cone and a cylindrical shell.  It is accepted exactly if rounding the lower
    cut point moves it, times the height of the cone, by less than 1e-8.  Then its right side runs from the cut point of the cone over four points of a
    circle that touches both walls to the cut point of the shell; with its mirror image it is a closed polygon.  The part below is joined
    to the last point of the arc. *)
Lemma round_krempe : forall j r hts below, round_fits j r -> given j hts below -> let q0 := rounded (start j) in let q1 := stop j in let m := mirror (axis j) in
  (Rabs (cone_h j * (px q0 - px (start j))) < 1 / 10^8 ->
   exists k rr c vs, kegelkrempe (up j) (down j) r hts (cone j) = Ok k /\ touching j r c /\ arc_points j r c vs /\
     k_segs k = wall_chain (q0 :: vs ++ [q1]) ++ [NonWall q1 (m q1)] ++ wall_chain (map m (q0 :: vs ++ [q1])) ++ [NonWall (m q0) q0] /\
     k_kegel k = outline (axis j) (foot j) q0 /\ k_oben k = outline (axis j) q1 (head j) /\
     k_unten k = option_map (joined (axis j) (last vs q0)) below /\
     krempe_part k = Ok (true, rr) /\ rearranged rr (k_segs k) /\ iscontinuous rr = true /\ isclosed rr = Ok true) /\
  (~ Rabs (cone_h j * (px q0 - px (start j))) < 1 / 10^8 -> kegelkrempe (up j) (down j) r hts (cone j) = Err AssertionError).
Proof.
  intros j r hts below RF GI q0 q1 m. destruct (round_side j r RF) as (c & v0 & v1 & v2 & v3 & h & P & TO & AP & RS & VR & VL). fold q0 q1 m in VR, VL.
  destruct (arc_height j r c v0 v1 v2 v3 RF TO AP) as (PT & H0 & H3 & FAR). pose proof RF as (F & DT & S3 & SH & D8 & RB & CH & U1 & U2). pose proof (T_spec j r RF) as (TP & _).
  destruct (cut_ends j F) as (Q0 & Q1 & _). destruct (cut_tests j F) as (K0 & K1 & Z0 & Z1). pose proof (start_x j F) as X0. pose proof F as ((A1 & A2 & A3 & A4 & A5 & A6 & A7 & A8 & A9) & B1 & B2 & B3 & B4).
  destruct (corners_stored j F) as (SF & SB & SHD).
  assert (X1 : px (stop j) = axis j + d_mid j / 2). { destruct (stop_y j F) as [_ X]. rewrite X, DT. eqR. field. lra. }
  assert (ST1 : stored (stop j)). { destruct (stop_y j F) as [Y X]. split; [rewrite X1; apply d8_add; auto|rewrite Y; apply d8_add; auto]. }
  assert (R1 : rounded (stop j) = q1) by (apply (again_stored (stop j)); auto). rewrite R1 in Q1, K1, Z0. fold q0 in Q0, K0, Z1.
  assert (ST0 : stored q0) by apply rounded_stored.
  assert (K1' : on_part (A := RA) (shell j) q1 = Ok true).
  { destruct K1 as (l & E & I). rewrite E. f_equal. apply I. unfold q1. replace (px (stop j) - px (stop j)) with 0 by (eqR; ring). rewrite Rmult_0_r, Rabs_R0. lra. }
  assert (SV : stored v0 /\ stored v1 /\ stored v2 /\ stored v3) by (repeat split; apply PT; cbn; tauto). destruct SV as (SV0 & SV1 & SV2 & SV3).
  set (ks := wall_chain [q0; v0; v1; v2; v3; q1] ++ [NonWall q1 (m q1)] ++ wall_chain (map m [q0; v0; v1; v2; v3; q1]) ++ [NonWall (m q0) q0]).
  assert (EV : kegelkrempe (A := RA) (up j) (down j) r hts (cone j) =
     (check_ends (A := RA) (shell j) (cone j) q0 q1 ;;; Ok (mkk ks (outline (axis j) q1 (head j)) (outline (axis j) (foot j) q0) (option_map (joined (axis j) v3) below)))).
  { unfold kegelkrempe. rewrite (given_order j hts below GI). replace (Nat.leb 1 _ && Nat.leb _ 2) with true by (destruct below; reflexivity).
    replace (last_of _) with (@Ok (mpart RA) (shell j)) by (destruct below; reflexivity). cbn [assert_ bind].
    replace (@nltb RA (m_d0 (cone j)) (m_d1 (cone j))) with true by (symmetry; apply Rltb_true; cbn; lra). cbn [assert_ bind].
    replace (@nltb RA n0 (up j)) with true by (symmetry; apply Rltb_true; unfold n0; cbn; lra). cbn [assert_ bind].
    replace (@nltb RA n0 (down j)) with true by (symmetry; apply Rltb_true; unfold n0; cbn; lra). cbn [assert_ bind].
    rewrite RS. cbn [bind fst snd]. change (m_h (shell j)) with (axis j). rewrite VR. cbn [chain pairs map combine tl get nth_error bind last_of last_opt last fst snd LineSegment si sj]. cbn [fst snd] in VL. rewrite VL.
    unfold foot at 1. cbn [chain pairs map combine tl get nth_error bind last_of last_opt last fst snd LineSegment si sj]. destruct (check_ends (shell j) (cone j) q0 q1) as [[]|e]; [|reflexivity]. cbn [bind].
    replace (@nltb RA n0 r) with true by (symmetry; apply Rltb_true; unfold n0; cbn; lra).
    cbn [m_h m_v m_d0 m_d1 m_height shell cone mantel]. ra.
    assert (P2 : Point_new (axis j + d_top j / 2) (seam j + shell_h j) = head j) by (apply (again_stored (head j)); auto).
    assert (P3 : Point_new (axis j - d_top j / 2) (seam j + shell_h j) = mirror (axis j) (head j)).
    { replace (axis j - d_top j / 2) with (2 * axis j - (axis j + d_top j / 2)) by ring. apply (again_stored (mirror (axis j) (head j))). apply mirror_stored; auto. }
    assert (P1 : Point_new (axis j + d_low j / 2) (seam j - cone_h j) = foot j) by (apply (again_stored (foot j)); auto).
    assert (P4 : Point_new (axis j - d_low j / 2) (seam j - cone_h j) = mirror (axis j) (foot j)).
    { replace (axis j - d_low j / 2) with (2 * axis j - (axis j + d_low j / 2)) by ring. apply (again_stored (mirror (axis j) (foot j))). apply mirror_stored; auto. }
    change (nofZ 2) with 2 in *. rewrite P1, P2, P3, P4. rewrite !again_stored; auto; try apply mirror_stored; auto.
    destruct below as [u|]; [|reflexivity]. destruct u as [? ? ? ? ? [|] ?]; reflexivity. }
  destruct K0 as (l0 & E0 & L0). unfold check_ends in EV. rewrite E0, Z0, Z1, K1' in EV. cbn [bind] in EV. rewrite orb_false_r in EV. cbn [orb assert_ bind] in EV.
  split.
  - intros H. apply L0 in H. subst l0. cbn [assert_ bind] in EV.
    set (vs := [q0; v0; v1; v2; v3; q1; m q1; m v3; m v2; m v1; m v0; m q0]).
    set (cyc := wall_chain [q0; v0; v1; v2; v3; q1] ++ [NonWall q1 (m q1)] ++ rev (wall_chain (map m [q0; v0; v1; v2; v3; q1])) ++ [NonWall (m q0) q0]).
    set (l := [q0; v0; v1; v2; v3; q1]).
    assert (Y0 : py q0 = seam j - down j) by (rewrite Q0; reflexivity). assert (Y1 : py q1 = seam j + up j) by (rewrite Q1; reflexivity).
    assert (FL : ForallOrdPairs far l).
    { unfold l. change [q0; v0; v1; v2; v3; q1] with ([q0] ++ [v0; v1; v2; v3] ++ [q1]). apply FOP_app; [repeat constructor|apply FOP_app; [exact FAR|repeat constructor|]|].
      - intros p q Ip [<-|[]]. apply far_sym. destruct (PT _ Ip) as (_ & Yp & _). apply (y_far _ _ (py p)); lra.
      - intros p q [<-|[]] Iq. apply far_sym. apply in_app_iff in Iq as [Iq|[<-|[]]]; [|apply (y_far _ _ (py q0)); lra]. destruct (PT _ Iq) as (_ & Yq & _). apply (y_far _ _ (py q0)); lra. }
    destruct (far_separated l FL) as [SEPL NDL].
    assert (RL : forall p, In p l -> axis j + 1 / 10^5 / 2 <= px p).
    { intros p Ip. unfold l in Ip. change [q0; v0; v1; v2; v3; q1] with ([q0] ++ [v0; v1; v2; v3] ++ [q1]) in Ip. apply in_app_iff in Ip as [[<-|[]]|Ip]; [rewrite Q0; cbn [px]; lra|]. apply in_app_iff in Ip as [Ip|[<-|[]]]; [apply PT in Ip; lra|unfold q1; rewrite X1; lra]. }
    destruct (mirror_separated (axis j) l SEPL NDL RL) as [SEP ND]. change (l ++ rev (map (mirror (axis j)) l)) with vs in SEP, ND.
    destruct (order_spec vs ks cyc) as (us & rr & EO & RE & _ & _ & CO & CL & _); auto.
    { cbn. lia. }
    { unfold vs, cyc, wall_chain, cycle_edges. cbn [pairs map combine tl rev app fst snd]. repeat (apply Forall2_cons; [unfold joins; cbn; auto|]). constructor. }
    { unfold ks, cyc. apply Permutation_app_head. apply perm_skip. apply Permutation_app_tail. apply Permutation_rev. }
    exists (mkk ks (outline (axis j) q1 (head j)) (outline (axis j) (foot j) q0) (option_map (joined (axis j) v3) below)), rr, c, [v0; v1; v2; v3].
    split; [exact EV|]. cbn [k_kegel k_oben k_unten k_segs krempe_part]. repeat (split; [solve [auto]|]). auto.
  - intros N. rewrite EV. destruct l0; [|reflexivity]. exfalso. apply N. tauto.
Qed.

(*@ C82_small *)
(** C82: cones less than 2 high are always accepted. *)
Lemma small_round : forall j r hts below, round_fits j r -> given j hts below -> cone_h j < 2 ->
  exists k, kegelkrempe (A := RA) (up j) (down j) r hts (cone j) = Ok k.
Proof.
  intros j r hts below RF GI H2. pose proof RF as (F & _). destruct (round_krempe j r hts below RF GI) as [H _].
  destruct H as (k & _ & _ & _ & E & _); [|exists k; exact E].
  destruct F as (_ & _ & _ & B3 & _). rewrite Rabs_mult, (Rabs_right (cone_h j)) by lra. unfold rounded. rewrite Pn. cbn [px]. pose proof (Rround8_err (px (start j))) as E. 
  assert (0 <= Rabs (Rround8 (px (start j)) - px (start j))) by apply Rabs_pos. nra.
Qed.

(*@ex C82_example *)
(** Non-vacuity of C82: the vessel of the project's tests (cone 2 to 4, height 1, shell 4, height 1.5, r = 0.5, transition 0.3 down and 0.4 up), with and
    without a part below. *)
Example round_example : let j := mkjoint 0 2 1 (3 / 2) 2 4 4 (3 / 10) (4 / 10) in
  round_fits j (1 / 2) /\ (exists k, kegelkrempe (A := RA) (4 / 10) (3 / 10) (1 / 2) [shell j] (cone j) = Ok k) /\
  (exists k, kegelkrempe (A := RA) (4 / 10) (3 / 10) (1 / 2) [shell j; standzarge (A := RA) 0 0 4 4 2] (cone j) = Ok k).
Proof.
  intros j. assert (RF : round_fits j (1 / 2)).
  { destruct krempe_example as (F & _). unfold round_fits. split; [exact F|]. unfold j, spread, tangent, lean, spread. cbn [d_low d_mid d_top cone_h shell_h down up].
    replace ((4 - 2) / 2 / 1) with 1 by field. rewrite atan_1. split; [reflexivity|]. split; [lra|]. split; [lra|]. split; [exists 50000000%Z; lra|]. split; [lra|].
    assert (S4 : sin (PI / 4) = cos (PI / 4)) by apply sin_cos_PI4 || (rewrite sin_PI4, cos_PI4; reflexivity). pose proof PI_RGT_0 as PI0.
    assert (C4 : 7 / 10 < cos (PI / 4) < 71 / 100).
    { rewrite cos_PI4. pose proof (sqrt_sqrt 2 ltac:(lra)) as Q. pose proof (sqrt_lt_R0 2 ltac:(lra)) as Q0. split; [apply (Rmult_lt_reg_r (sqrt 2))|apply (Rmult_lt_reg_r (sqrt 2))]; auto; replace (1 / sqrt 2 * sqrt 2) with 1 by (field; lra); nra. }
    destruct (half_tan (PI / 4)) as [HT HP]; [lra|]. rewrite S4 in HT. set (t := tan (PI / 4 / 2)) in *.
    assert (T : t < 43 / 100) by nra.
    split; [|split; nra].
    pose proof (sin_small 6 45 ltac:(lia) ltac:(lra)) as SS. unfold rad in SS. replace (45 * PI / 180) with (PI / 4) in SS by field. replace (45 / INR 6 * PI / 180) with (PI / 4 / 6) in SS by (cbn [INR]; field). rewrite S4 in SS. replace (INR 6) with 6 in SS by (cbn; lra). lra. }
  assert (G1 : given j [shell j] None) by constructor.
  assert (G2 : given j [shell j; standzarge (A := RA) 0 0 4 4 2] (Some (standzarge (A := RA) 0 0 4 4 2))) by (apply given_second; cbn; lra).
  split; [exact RF|]. split; [apply (small_round j (1 / 2) _ _ RF G1); cbn; lra|apply (small_round j (1 / 2) _ _ RF G2); cbn; lra].
Qed.
