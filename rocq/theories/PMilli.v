(** Binary64 on coordinates with three decimals: the rounding errors of products, and what they leave decidable. *)
From Coq Require Import ZArith Reals Lra Lia Bool List Permutation Arith Floats.SpecFloat.
From Flocq Require Import Core BinarySingleNaN.
From Verif Require Import Base Arith ArithR ArithF MPoint MLine MPoly MHeap Spec SpecHeap SpecDouble PPoint PLine PFlocq PHeap PDouble PExact.
Import ListNotations.
Local Open Scope R_scope.
#[local] Existing Instance RA.
#[local] Existing Instance Vfx.
#[local] Existing Instance Mfx.

Lemma rnd_half : forall n z, (-900 <= n <= 900)%Z -> Rabs z < bpow radix2 n -> Rabs (nearest z - z) <= bpow radix2 (n - 54).
Proof.
  intros n z N H. destruct (Req_EM_T z 0) as [->|NZ].
  { unfold nearest. rewrite round_0 by apply valid_rnd_N. rewrite Rminus_0_r, Rabs_R0. apply bpow_ge_0. }
  pose proof (error_le_half_ulp radix2 fx (fun n => negb (Z.even n)) z) as E. unfold nearest.
  apply Rle_trans with (1 := E). rewrite ulp_neq_0 by exact NZ. replace (n - 54)%Z with (n - 53 + -1)%Z by lia. rewrite bpow_plus. change (bpow radix2 (-1)) with (/ 2). rewrite Rmult_comm. apply Rmult_le_compat_r; [lra|].
  apply bpow_le. unfold cexp, SpecFloat.fexp. assert (M : (mag radix2 z <= n)%Z) by (apply mag_le_bpow; auto). unfold SpecFloat.emin. lia.
Qed.
(** A double near a real. *)
Definition near (e : R) (x : F) (u : R) : Prop := double x /\ Rabs (value x - u) <= e.
Lemma near_sub : forall e f n x y u v, near e x u -> near f y v -> (0 <= n <= 59)%Z -> Rabs (u - v) + e + f < bpow radix2 n -> near (e + f + bpow radix2 (n - 54)) (Fsub x y) (u - v).
Proof.
  intros e f n x y u v [Dx Ex] [Dy Ey] N B. assert (B' : Rabs (value x - value y) < bpow radix2 n).
  { apply Rle_lt_trans with (2 := B). replace (value x - value y) with ((u - v) + (value x - u) + (v - value y)) by lra. eapply Rle_trans; [apply Rabs_triang|]. eapply Rle_trans; [apply Rplus_le_compat_r; apply Rabs_triang|]. rewrite (Rabs_minus_sym v). lra. }
  destruct (fsub x y Dx Dy) as [K1 K2]; [apply Rlt_le; apply Rlt_le_trans with (1 := B'); apply bpow_le; lia|]. split; [exact K1|]. rewrite K2. pose proof (rnd_half n _ ltac:(lia) B') as H.
  replace (nearest (value x - value y) - (u - v)) with ((nearest (value x - value y) - (value x - value y)) + (value x - u) + (v - value y)) by lra.
  eapply Rle_trans; [apply Rabs_triang|]. eapply Rle_trans; [apply Rplus_le_compat_r; apply Rabs_triang|]. rewrite (Rabs_minus_sym v). lra.
Qed.
Lemma near_add : forall e f n x y u v, near e x u -> near f y v -> (0 <= n <= 59)%Z -> Rabs (u + v) + e + f < bpow radix2 n -> near (e + f + bpow radix2 (n - 54)) (Fadd x y) (u + v).
Proof.
  intros e f n x y u v [Dx Ex] [Dy Ey] N B. assert (B' : Rabs (value x + value y) < bpow radix2 n).
  { apply Rle_lt_trans with (2 := B). replace (value x + value y) with ((u + v) + (value x - u) + (value y - v)) by lra. eapply Rle_trans; [apply Rabs_triang|]. eapply Rle_trans; [apply Rplus_le_compat_r; apply Rabs_triang|]. lra. }
  destruct (fadd x y Dx Dy) as [K1 K2]; [apply Rlt_le; apply Rlt_le_trans with (1 := B'); apply bpow_le; lia|]. split; [exact K1|]. rewrite K2. pose proof (rnd_half n _ ltac:(lia) B') as H.
  replace (nearest (value x + value y) - (u + v)) with ((nearest (value x + value y) - (value x + value y)) + (value x - u) + (value y - v)) by lra.
  eapply Rle_trans; [apply Rabs_triang|]. eapply Rle_trans; [apply Rplus_le_compat_r; apply Rabs_triang|]. lra.
Qed.
Lemma near_mul : forall e f n M x y u v, near e x u -> near f y v -> (0 <= n <= 59)%Z -> 0 <= e -> 0 <= f -> Rabs u <= M -> Rabs v <= M -> M * M + M * f + (M + f) * e < bpow radix2 n ->
  near (M * f + (M + f) * e + bpow radix2 (n - 54)) (Fmul x y) (u * v).
Proof.
  intros e f n M x y u v [Dx Ex] [Dy Ey] N E0 F0 Hu Hv B.
  assert (VY : Rabs (value y) <= M + f) by (replace (value y) with (v + (value y - v)) by lra; eapply Rle_trans; [apply Rabs_triang|]; lra).
  assert (PE : Rabs (value x * value y - u * v) <= M * f + (M + f) * e).
  { replace (value x * value y - u * v) with (u * (value y - v) + (value y) * (value x - u)) by ring. eapply Rle_trans; [apply Rabs_triang|]. rewrite !Rabs_mult. apply Rplus_le_compat; apply Rmult_le_compat; auto; apply Rabs_pos. }
  assert (UV : Rabs (u * v) <= M * M) by (rewrite Rabs_mult; apply Rmult_le_compat; auto; apply Rabs_pos).
  assert (B' : Rabs (value x * value y) < bpow radix2 n) by (apply Rle_lt_trans with (2 := B); replace (value x * value y) with (u * v + (value x * value y - u * v)) by lra; eapply Rle_trans; [apply Rabs_triang|]; lra).
  destruct (fmul x y Dx Dy) as [K1 K2]; [apply Rlt_le; apply Rlt_le_trans with (1 := B'); apply bpow_le; lia|]. split; [exact K1|]. rewrite K2. pose proof (rnd_half n _ ltac:(lia) B') as H.
  replace (nearest (value x * value y) - u * v) with ((nearest (value x * value y) - value x * value y) + (value x * value y - u * v)) by lra. eapply Rle_trans; [apply Rabs_triang|]. lra.
Qed.
Lemma near_weaken : forall e f x u, near e x u -> e <= f -> near f x u.
Proof. intros e f x u [D H] L. split; [exact D|lra]. Qed.
Ltac pw := repeat match goal with |- context [bpow radix2 ?k] => let v := eval vm_compute in (if (k <? 0)%Z then Z.pow 2 (Z.opp k) else Z.pow 2 k) in
  (replace (bpow radix2 k) with (/ IZR v) by (vm_compute; reflexivity)) || (replace (bpow radix2 k) with (IZR v) by (vm_compute; reflexivity)) end.
Lemma st_near : forall x u, stands x u -> Rabs u <= 1000 -> near (bpow radix2 (-44)) x u.
Proof. intros x u [D V] H. split; [exact D|]. rewrite V. apply (rnd_half 10); [lia|]. apply Rle_lt_trans with (1 := H). change (bpow radix2 10) with 1024. lra. Qed.
Definition thou (x : F) (u : R) : Prop := stands x u /\ Rabs u <= 1000.
Lemma diff_near : forall x y u v, thou x u -> thou y v -> near (/ 4398046511104) (Fsub x y) (u - v) /\ Rabs (u - v) <= 2000.
Proof.
  intros x y u v [Sx Hu] [Sy Hv]. assert (D : Rabs (u - v) <= 2000) by (apply Rabs_le_inv in Hu, Hv; apply Rabs_le; lra). split; [|exact D].
  pose proof (near_sub _ _ 11 x y u v (st_near x u Sx Hu) (st_near y v Sy Hv) ltac:(lia)) as H. change (bpow radix2 (-44)) with (/ 17592186044416) in H. change (bpow radix2 11) with 2048 in H. change (bpow radix2 (11 - 54)) with (/ 8796093022208) in H.
  eapply near_weaken; [apply H; lra|lra].
Qed.
Lemma prod_near : forall x y u v, near (/ 4398046511104) x u -> near (/ 4398046511104) y v -> Rabs u <= 2000 -> Rabs v <= 2000 -> near (115 / 100000000000) (Fmul x y) (u * v) /\ Rabs (u * v) <= 4000000.
Proof.
  intros x y u v Nx Ny Hu Hv. split; [|rewrite Rabs_mult; replace 4000000 with (2000 * 2000) by lra; apply Rmult_le_compat; auto; apply Rabs_pos].
  pose proof (near_mul _ _ 22 2000 x y u v Nx Ny ltac:(lia) ltac:(lra) ltac:(lra) Hu Hv) as H. change (bpow radix2 22) with 4194304 in H. change (bpow radix2 (22 - 54)) with (/ 4294967296) in H.
  eapply near_weaken; [apply H; lra|lra].
Qed.
Lemma cross_near : forall x1 x2 y1 y2 x3 x4 y3 y4 u1 u2 v1 v2 u3 u4 v3 v4, thou x1 u1 -> thou x2 u2 -> thou y1 v1 -> thou y2 v2 -> thou x3 u3 -> thou x4 u4 -> thou y3 v3 -> thou y4 v4 ->
  near (3 / 1000000000) (Fsub (Fmul (Fsub x1 x2) (Fsub y1 y2)) (Fmul (Fsub x3 x4) (Fsub y3 y4))) ((u1 - u2) * (v1 - v2) - (u3 - u4) * (v3 - v4)) /\
  near (3 / 1000000000) (Fadd (Fmul (Fsub x1 x2) (Fsub y1 y2)) (Fmul (Fsub x3 x4) (Fsub y3 y4))) ((u1 - u2) * (v1 - v2) + (u3 - u4) * (v3 - v4)).
Proof.
  intros x1 x2 y1 y2 x3 x4 y3 y4 u1 u2 v1 v2 u3 u4 v3 v4 A B C D E G H I.
  destruct (diff_near _ _ _ _ A B) as [N1 B1]. destruct (diff_near _ _ _ _ C D) as [N2 B2]. destruct (diff_near _ _ _ _ E G) as [N3 B3]. destruct (diff_near _ _ _ _ H I) as [N4 B4].
  destruct (prod_near _ _ _ _ N1 N2 B1 B2) as [P1 Q1]. destruct (prod_near _ _ _ _ N3 N4 B3 B4) as [P2 Q2].
  set (p := (u1 - u2) * (v1 - v2)) in *. set (q := (u3 - u4) * (v3 - v4)) in *.
  assert (BS : Rabs (p - q) <= 8000000) by (apply Rabs_le_inv in Q1, Q2; apply Rabs_le; lra). assert (BA : Rabs (p + q) <= 8000000) by (apply Rabs_le_inv in Q1, Q2; apply Rabs_le; lra).
  pose proof (near_sub _ _ 23 _ _ _ _ P1 P2 ltac:(lia)) as S1. pose proof (near_add _ _ 23 _ _ _ _ P1 P2 ltac:(lia)) as S2.
  change (bpow radix2 23) with 8388608 in *. change (bpow radix2 (23 - 54)) with (/ 2147483648) in *. split; eapply near_weaken; [apply S1; lra|lra|apply S2; lra|lra].
Qed.
Lemma stands_thou : forall L (p : pt (FA L)) q, stands_pt p q -> Rabs (px q) <= 1000 -> Rabs (py q) <= 1000 -> thou (px p) (px q) /\ thou (py p) (py q).
Proof. intros L p q [S1 S2] H1 H2. repeat split; auto; (apply S1 || apply S2). Qed.
Lemma milli_d8 : forall u, milli u -> decimal8 u /\ Rabs u <= 1000.
Proof.
  intros u (k & K & ->). split; [exists (100000 * k)%Z; rewrite mult_IZR; lra|].
  unfold Rdiv. rewrite Rabs_mult, <- abs_IZR, (Rabs_pos_eq (/ 1000)) by lra. apply IZR_le in K. lra.
Qed.
Lemma milli_stored : forall q, milli_pt q -> stored q /\ moderate q.
Proof. intros q [D1 D2]. destruct (milli_d8 _ D1) as [K1 K2]. destruct (milli_d8 _ D2) as [K3 K4]. split; split; auto; lra. Qed.
Lemma milli_gap : forall u v, milli u -> milli v -> u <> v -> 1 / 1000 <= Rabs (u - v).
Proof.
  intros u v (a & _ & ->) (b & _ & ->) N. replace (IZR a / 1000 - IZR b / 1000) with (IZR (a - b) * / 1000) by (rewrite minus_IZR; field). rewrite Rabs_mult, <- abs_IZR, (Rabs_pos_eq (/ 1000)) by lra.
  assert (1 <= Z.abs (a - b))%Z as K by (assert (a <> b) by congruence; lia). apply IZR_le in K. lra.
Qed.
Lemma milli_clear : forall q1 q2, milli_pt q1 -> milli_pt q2 -> clear_of q1 q2.
Proof.
  intros [u1 v1] [u2 v2] [D1 D2] [D3 D4]. simpl in *. unfold clear_of. simpl. destruct (Req_EM_T u1 u2) as [->|N].
  - destruct (Req_EM_T v1 v2) as [->|N]; [left; reflexivity|]. right. right. pose proof (milli_gap _ _ D2 D4 N). lra.
  - right. left. pose proof (milli_gap _ _ D1 D3 N). lra.
Qed.
(** The orientation of three such points is a multiple of 1e-6. *)
Lemma milli_orient : forall a b c, milli_pt a -> milli_pt b -> milli_pt c -> orient a b c = 0 \/ 1 / 1000000 <= Rabs (orient a b c).
Proof.
  intros [xa ya] [xb yb] [xc yc] [(k1 & _ & A1) (k2 & _ & A2)] [(k3 & _ & A3) (k4 & _ & A4)] [(k5 & _ & A5) (k6 & _ & A6)]. simpl in *. subst. unfold orient. simpl.
  replace ((IZR k3 / 1000 - IZR k1 / 1000) * (IZR k6 / 1000 - IZR k2 / 1000) - (IZR k4 / 1000 - IZR k2 / 1000) * (IZR k5 / 1000 - IZR k1 / 1000)) with (IZR ((k3 - k1) * (k6 - k2) - (k4 - k2) * (k5 - k1)) * / 1000000) by (rewrite minus_IZR, !mult_IZR, !minus_IZR; field).
  set (k := ((k3 - k1) * (k6 - k2) - (k4 - k2) * (k5 - k1))%Z). destruct (Z.eq_dec k 0) as [->|N]; [left; lra|right]. rewrite Rabs_mult, <- abs_IZR, (Rabs_pos_eq (/ 1000000)) by lra. assert (1 <= Z.abs k)%Z as K by lia. apply IZR_le in K. lra.
Qed.
(*@ C89_error *)
(** C89: coordinates with up to 8 decimals and up to 1000 in absolute value: the computed cross product
    and dot product of two segments differ from the exact ones by at most 3e-9. *)
Lemma error_cross : forall L (s t : seg (FA L)) (s' t' : seg RA), stands_seg s s' -> stands_seg t t' ->
  (forall q, In q [si s'; sj s'; si t'; sj t'] -> Rabs (px q) <= 1000 /\ Rabs (py q) <= 1000) ->
  let dx (u : seg RA) := px (sj u) - px (si u) in let dy (u : seg RA) := py (sj u) - py (si u) in
  double (crossproduct s t) /\ Rabs (value (crossproduct s t) - (dx s' * dy t' - dy s' * dx t')) <= 3 / 10 ^ 9 /\
  double (dotproduct s t) /\ Rabs (value (dotproduct s t) - (dx s' * dx t' + dy s' * dy t')) <= 3 / 10 ^ 9.
Proof.
  intros L [c1 i j] [c2 k l] [c1' i' j'] [c2' k' l'] (_ & E1 & E2) (_ & E3 & E4) B dx dy. simpl in E1, E2, E3, E4.
  destruct (stands_thou L _ _ E1 ltac:(apply B; simpl; auto) ltac:(apply B; simpl; auto)) as [A1 B1]. destruct (stands_thou L _ _ E2 ltac:(apply B; simpl; auto) ltac:(apply B; simpl; auto)) as [A2 B2].
  destruct (stands_thou L _ _ E3 ltac:(apply B; simpl; auto) ltac:(apply B; simpl; auto)) as [A3 B3]. destruct (stands_thou L _ _ E4 ltac:(apply B; simpl; auto) ltac:(apply B; simpl; auto)) as [A4 B4].
  destruct (cross_near _ _ _ _ _ _ _ _ _ _ _ _ _ _ _ _ A2 A1 B4 B3 B2 B1 A4 A3) as [[K1 K2] _]. destruct (cross_near _ _ _ _ _ _ _ _ _ _ _ _ _ _ _ _ A2 A1 A4 A3 B2 B1 B4 B3) as [_ [K3 K4]].
  replace (3 / 10 ^ 9) with (3 / 1000000000) by lra. split; [exact K1|]. split; [exact K2|]. split; [exact K3|exact K4].
Qed.
(*@ C89_right *)
(** C89: for the same coordinates, a Point that is clearly right of the segment is reported so, a Point that is clearly
    left of it is not; only if twice the area of the triangle is at most 3e-9 the answer may be wrong. *)
Lemma error_right : forall L (s : seg (FA L)) (p : pt (FA L)) (s' : seg RA) (p' : pt RA), stands_seg s s' -> stands_pt p p' ->
  (forall q, In q [si s'; sj s'; p'] -> Rabs (px q) <= 1000 /\ Rabs (py q) <= 1000) ->
  (orient (si s') (sj s') p' < - (3 / 10 ^ 9) -> is_point_to_right s p = true) /\ (3 / 10 ^ 9 < orient (si s') (sj s') p' -> is_point_to_right s p = false).
Proof.
  intros L s p s' p' E P B. destruct (error_cross L s (LineSegment (si s) p) s' (LineSegment (si s') p')) as (K1 & K2 & _); [exact E|split; [reflexivity|split; [apply E|exact P]]|simpl; intros q I; apply B; simpl; tauto|].
  unfold is_point_to_right. set (x := crossproduct s (LineSegment (si s) p)) in *. cbn [LineSegment si sj] in K2. fold (orient (si s') (sj s') p') in K2.
  assert (Z : value (FofZ 0) = 0) by reflexivity. assert (D0 : double (FofZ 0)) by (split; reflexivity).
  change (@nltb (FA L) x n0) with (SFltb x (FofZ 0)). change (@nltb (FA L) n0 x) with (SFltb (FofZ 0) x). rewrite !fltb, Z by auto. apply Rabs_le_inv in K2. split; intros H.
  - rewrite Rlt_bool_true; [reflexivity|lra].
  - rewrite (Rlt_bool_false (value x)) by lra. destruct (Rlt_bool 0 (value x)); reflexivity.
Qed.

(** * Points that are identical or more than 1e-5 apart *)
Lemma near_floor : forall n z, (-900 <= n <= 900)%Z -> bpow radix2 n <= z -> bpow radix2 n <= nearest z.
Proof.
  intros n z N H. replace (bpow radix2 n) with (nearest (bpow radix2 n)); [unfold nearest; apply round_le; [apply Vfx|apply valid_rnd_N|exact H]|].
  unfold nearest. apply round_generic; [apply valid_rnd_N|]. apply generic_format_bpow. unfold SpecFloat.fexp, FLT_exp. lia.
Qed.
Lemma square_near : forall x, double x -> Rabs (value x) <= 4194304 -> double (Fmul x x) /\ value (Fmul x x) = nearest (value x * value x) /\ 0 <= value (Fmul x x) <= 17592186044416.
Proof.
  intros x D H. assert (Q : 0 <= value x * value x <= 17592186044416).
  { split; [apply Rle_0_sqr|]. replace (value x * value x) with (Rabs (value x) * Rabs (value x)) by (rewrite <- Rabs_mult; apply Rabs_pos_eq; apply Rle_0_sqr). replace 17592186044416 with (4194304 * 4194304) by lra. apply Rmult_le_compat; auto; apply Rabs_pos. }
  destruct (fmul x x D D) as [K1 K2].
  - rewrite Rabs_pos_eq by lra. change (bpow radix2 60) with 1152921504606846976. lra.
  - split; [exact K1|]. split; [exact K2|]. rewrite K2. split.
    + unfold nearest. replace 0 with (nearest 0) by (unfold nearest; apply round_0; apply valid_rnd_N). apply round_le; [apply Vfx|apply valid_rnd_N|lra].
    + replace 17592186044416 with (nearest 17592186044416); [unfold nearest; apply round_le; [apply Vfx|apply valid_rnd_N|lra]|]. change 17592186044416 with (bpow radix2 44). unfold nearest. apply round_generic; [apply valid_rnd_N|]. apply generic_format_bpow. unfold SpecFloat.fexp, FLT_exp. lia.
Qed.
Lemma hypot : forall x y, double x -> double y -> Rabs (value x) <= 4194304 -> Rabs (value y) <= 4194304 ->
  let d := Fsqrt (Fadd (Fmul x x) (Fmul y y)) in double d /\ (value x = 0 -> value y = 0 -> value d = 0) /\ (bpow radix2 (-17) <= Rabs (value x) \/ bpow radix2 (-17) <= Rabs (value y) -> bpow radix2 (-17) <= value d).
Proof.
  intros x y Dx Dy Hx Hy d. destruct (square_near x Dx Hx) as (X1 & X2 & X3). destruct (square_near y Dy Hy) as (Y1 & Y2 & Y3).
  destruct (fadd _ _ X1 Y1) as [A1 A2]; [rewrite Rabs_pos_eq by lra; change (bpow radix2 60) with 1152921504606846976; lra|].
  assert (N0 : nearest 0 = 0) by (unfold nearest; apply round_0; apply valid_rnd_N).
  assert (AP : 0 <= value (Fadd (Fmul x x) (Fmul y y))) by (rewrite A2, <- N0; unfold nearest; apply round_le; [apply Vfx|apply valid_rnd_N|lra]).
  destruct (fsqrt _ A1 AP) as [S1 S2]. split; [exact S1|]. unfold d. rewrite S2, A2, X2, Y2. split.
  - intros -> ->. rewrite !Rmult_0_l, !N0, Rplus_0_l, N0, sqrt_0. apply N0.
  - assert (SQ : forall z, bpow radix2 (-17) <= Rabs z -> bpow radix2 (-34) <= z * z).
    { intros z H. replace (z * z) with (Rabs z * Rabs z) by (rewrite <- Rabs_mult; apply Rabs_pos_eq; apply Rle_0_sqr). change (-34)%Z with (-17 + -17)%Z. rewrite bpow_plus. apply Rmult_le_compat; auto; apply bpow_ge_0. }
    assert (PO : forall z, 0 <= nearest (z * z)) by (intros z; rewrite <- N0; unfold nearest; apply round_le; [apply Vfx|apply valid_rnd_N|apply Rle_0_sqr]).
    intros H. apply near_floor; [lia|]. replace (bpow radix2 (-17)) with (sqrt (bpow radix2 (-34))) by (change (bpow radix2 (-34)) with (bpow radix2 (-17 + -17)); rewrite bpow_plus; apply sqrt_square; apply bpow_ge_0).
    apply sqrt_le_1_alt. apply near_floor; [lia|]. pose proof (PO (value x)) as PX. pose proof (PO (value y)) as PY. destruct H as [H|H]; apply SQ in H; apply (near_floor (-34)) in H; try lia; lra.
Qed.
Lemma touch_double : forall L (p1 p2 : pt (FA L)) (q1 q2 : pt RA), stands_pt p1 q1 -> stands_pt p2 q2 -> stored q1 -> stored q2 -> moderate q1 -> moderate q2 -> clear_of q1 q2 ->
  (SFltb (pt_distance p1 p2) (EPS (A := FA L)) = true <-> q1 = q2) /\ (pt_distance q1 q2 < 1 / 100000000 <-> q1 = q2).
Proof.
  intros L p1 p2 q1 q2. destruct (eps_double L) as [ED EV]. set (e := EPS (A := FA L)) in *. clearbody e. revert p1 p2 q1 q2. intros [x1 y1] [x2 y2] [u1 v1] [u2 v2] [S1 S2] [S3 S4] [D1 D2] [D3 D4] M M' C. destruct (mod_x _ M) as [M1 M2]. destruct (mod_x _ M') as [M3 M4]. simpl in *. ra_simpl.
  assert (DF : forall x y u v, stands x u -> stands y v -> Rabs u <= 1000000 -> Rabs v <= 1000000 -> double (Fsub x y) /\ Rabs (value (Fsub x y)) <= 4194304 /\ (u = v -> value (Fsub x y) = 0) /\ (1 / 10 ^ 5 < Rabs (u - v) -> bpow radix2 (-17) <= Rabs (value (Fsub x y)))).
  { intros x y u v Sx Sy Hu Hv. pose proof (st_err x u Sx ltac:(lra)) as Ex. pose proof (st_err y v Sy ltac:(lra)) as Ey.
    assert (B : Rabs (value x - value y) <= 4194303) by small. destruct (fsub x y (proj1 Sx) (proj1 Sy)) as [K1 K2]; [apply big; lra|]. pose proof (rnd_err (value x - value y) ltac:(lra)) as E. rewrite <- K2 in E. split; [exact K1|]. split; [small|]. split.
    - intros ->. rewrite K2. replace (value x - value y) with 0 by (rewrite (proj2 Sx), (proj2 Sy); lra). unfold nearest. apply round_0. apply valid_rnd_N.
    - intros H. change (bpow radix2 (-17)) with (/ 131072). clear - H E Ex Ey. unfold eps in *. apply Rabs_le_inv in E, Ex, Ey. unfold Rabs in *. destruct (Rcase_abs (u - v)), (Rcase_abs (value (Fsub x y))); lra. }
  destruct (DF x1 x2 u1 u2 S1 S3 ltac:(lra) ltac:(lra)) as (X1 & X2 & X3 & X4). destruct (DF y1 y2 v1 v2 S2 S4 ltac:(lra) ltac:(lra)) as (Y1 & Y2 & Y3 & Y4).
  destruct (hypot _ _ X1 Y1 X2 Y2) as (H1 & H2 & H3).
  assert (PF : pt_distance (@mkpt (FA L) x1 y1) (@mkpt (FA L) x2 y2) = Fsqrt (Fadd (Fmul (Fsub x1 x2) (Fsub x1 x2)) (Fmul (Fsub y1 y2) (Fsub y1 y2)))) by reflexivity. rewrite PF. cbv zeta in H1, H2, H3.
  set (d := Fsqrt _) in *. rewrite fltb by auto.
  assert (PD : pt_distance (@mkpt RA u1 v1) (@mkpt RA u2 v2) = sqrt ((u1 - u2) * (u1 - u2) + (v1 - v2) * (v1 - v2))) by (rewrite pt_distance_R; reflexivity).
  destruct C as [C|C]; simpl in C.
  - injection C as -> ->. split; (split; [reflexivity|intros _]).
    + apply Rlt_bool_true. rewrite H2 by auto. lra.
    + rewrite PD. replace (_ + _) with 0 by ring. rewrite sqrt_0. lra.
  - split; split; intros H.
    + exfalso. rewrite Rlt_bool_false in H; [discriminate|]. apply Rle_trans with (bpow radix2 (-17)); [change (bpow radix2 (-17)) with (/ 131072); lra|]. apply H3. destruct C; auto.
    + exfalso. injection H as -> ->. rewrite !Rminus_diag_eq, Rabs_R0 in C by reflexivity. lra.
    + exfalso. rewrite PD in H. apply Rlt_not_le in H. apply H. clear H. destruct C as [C|C].
      * apply Rle_trans with (sqrt (Rsqr (u1 - u2))); [rewrite sqrt_Rsqr_abs; lra|]. apply sqrt_le_1_alt. pose proof (Rle_0_sqr (v1 - v2)) as Q. unfold Rsqr in *. lra.
      * apply Rle_trans with (sqrt (Rsqr (v1 - v2))); [rewrite sqrt_Rsqr_abs; lra|]. apply sqrt_le_1_alt. pose proof (Rle_0_sqr (u1 - u2)) as Q. unfold Rsqr in *. lra.
    + exfalso. injection H as -> ->. rewrite !Rminus_diag_eq, Rabs_R0 in C by reflexivity. lra.
Qed.
Section Clear.
Variables (L : Libm) (U : list (pt RA)).
Hypothesis HU : forall a b, In a U -> In b U -> clear_of a b.
Definition cpt (p : pt (FA L)) (q : pt RA) : Prop := stands_pt p q /\ stored q /\ moderate q /\ In q U.
Definition cseg (s : seg (FA L)) (t : seg RA) : Prop := sc s = sc t /\ cpt (si s) (si t) /\ cpt (sj s) (sj t).
Lemma cpt_same : forall a b c d, cpt a b -> cpt c d -> pt_sameb a c = pt_sameb b d.
Proof. intros a b c d (S1 & T1 & M1 & _) (S2 & T2 & M2 & _). apply (same_double L a c b d); auto. Qed.
Lemma cpt_lex : forall a b c d, cpt a b -> cpt c d -> lex_ltb a c = lex_ltb b d.
Proof. intros a b c d (S1 & T1 & M1 & _) (S2 & T2 & M2 & _). apply (same_double L a c b d); auto. Qed.
Lemma cpt_eq : forall a b c d, cpt a b -> cpt c d -> pt_eqb a c = pt_eqb b d.
Proof. intros a b c d (S1 & T1 & M1 & I1) (S2 & T2 & M2 & I2). apply (near_double L a c b d); auto. Qed.
Lemma cpt_is : forall b d, In b U -> In d U -> (pt_eqb b d = true <-> b = d).
Proof.
  intros p q I1 I2. split; [|intros ->; apply pt_eqb_refl]. intros H. destruct (HU p q I1 I2) as [C|C]; [exact C|exfalso].
  unfold pt_eqb in H. apply andb_true_iff in H. destruct H as [H1 H2]. ra_simpl. apply Rltb_true in H1, H2. unfold pt_tol, EPS in *. ra_simpl. lra.
Qed.
Lemma cpt_dist : forall a b c d, cpt a b -> cpt c d -> SFltb (pt_distance a c) (EPS (A := FA L)) = Rltb (pt_distance b d) (1 / 100000000).
Proof.
  intros a b c d (S1 & T1 & M1 & I1) (S2 & T2 & M2 & I2). destruct (touch_double L a c b d) as [K1 K2]; auto. apply eq_true_iff_eq. rewrite K1, Rltb_true, K2. reflexivity.
Qed.
Lemma cseg_ij : forall s t, cseg s t -> Forall2 cpt (ij s) (ij t).
Proof. intros s t (_ & E1 & E2). unfold ij. auto. Qed.
Lemma cseg_eq : forall s s' t t', cseg s s' -> cseg t t' -> seg_eqb s t = seg_eqb s' t' /\ seg_sameb s t = seg_sameb s' t' /\ isnull s = isnull s'.
Proof.
  intros s s' t t' (C1 & E1 & E2) (C2 & F1 & F2). unfold seg_eqb, seg_sameb, isnull. rewrite C1, C2.
  rewrite (cpt_eq _ _ _ _ E1 F1), (cpt_eq _ _ _ _ E2 F2), (cpt_same _ _ _ _ E1 F1), (cpt_same _ _ _ _ E2 F2), (cpt_eq _ _ _ _ E1 E2). auto.
Qed.
Lemma cseg_touch : forall s s' t t', cseg s s' -> cseg t t' -> touch s t = touch s' t' /\ continuous s t = continuous s' t'.
Proof.
  intros s s' t t' E F. assert (T : touch s t = touch s' t').
  { unfold touch. rewrite (rel_length cpt _ _ (rel_inter cpt pt_sameb pt_sameb _ _ _ _ cpt_same (cseg_ij s s' E) (cseg_ij t t' F))). f_equal.
    apply (rel_existsb cpt); [apply cseg_ij; exact E|]. intros a a' A. apply (rel_existsb cpt); [apply cseg_ij; exact F|]. intros b b' B.
    pose proof (cpt_dist a a' b b' A B) as Z. replace (1 / 100000000) with (1 / 10 ^ 8) in Z by lra. rewrite <- eps_R in Z. exact Z. }
  split; [exact T|]. unfold continuous. rewrite T. destruct E as (_ & E1 & E2). destruct F as (_ & F1 & F2). rewrite (cpt_eq _ _ _ _ E2 F1), (cpt_eq _ _ _ _ E1 F2). reflexivity.
Qed.
Lemma cseg_touch_is : forall s' t' : seg RA, (forall q, In q (ij s' ++ ij t') -> In q U /\ stored q /\ moderate q) ->
  (touch s' t' = true <-> si s' = si t' \/ si s' = sj t' \/ sj s' = si t' \/ sj s' = sj t') /\ (continuous s' t' = true <-> sj s' = si t' \/ si s' = sj t').
Proof.
  intros s' t' HI. assert (I1 := HI (si s') ltac:(simpl; auto)). assert (I2 := HI (sj s') ltac:(simpl; auto)). assert (I3 := HI (si t') ltac:(simpl; auto)). assert (I4 := HI (sj t') ltac:(simpl; auto)). destruct I1 as (I1 & _), I2 as (I2 & _), I3 as (I3 & _), I4 as (I4 & _).
  assert (NE : forall a b : pt RA, In a U -> In b U -> pt_distance a b < 1 / 100000000 -> a = b).
  { intros [xa ya] [xb yb] Da Db H. destruct (HU _ _ Da Db) as [C|C]; [exact C|exfalso]. rewrite pt_distance_R in H. simpl in *. apply Rlt_not_le in H. apply H. clear H. destruct C as [C|C].
    - apply Rle_trans with (sqrt (Rsqr (xa - xb))); [rewrite sqrt_Rsqr_abs; lra|]. apply sqrt_le_1_alt. pose proof (Rle_0_sqr (ya - yb)) as Q. unfold Rsqr in *. ra_simpl. lra.
    - apply Rle_trans with (sqrt (Rsqr (ya - yb))); [rewrite sqrt_Rsqr_abs; lra|]. apply sqrt_le_1_alt. pose proof (Rle_0_sqr (xa - xb)) as Q. unfold Rsqr in *. ra_simpl. lra. }
  assert (ZZ : forall a : pt RA, pt_distance a a < 1 / 100000000) by (intros a; pose proof (pt_distance_R a a) as Q; replace (_ + _) with 0 in Q by (ra_simpl; ring); rewrite sqrt_0 in Q; rewrite Q; lra).
  assert (TT : touch s' t' = true <-> si s' = si t' \/ si s' = sj t' \/ sj s' = si t' \/ sj s' = sj t').
  { rewrite touch_near. split.
    - intros (a & b & Ia & Ib & H). unfold ij in Ia, Ib. simpl in Ia, Ib. destruct Ia as [<-|[<-|[]]]; destruct Ib as [<-|[<-|[]]]; apply NE in H; auto.
    - unfold ij. simpl. intros [H|[H|[H|H]]]; [exists (si s'), (si t')|exists (si s'), (sj t')|exists (sj s'), (si t')|exists (sj s'), (sj t')]; rewrite H; repeat split; auto; (rewrite <- H; auto) || auto. }
  split; [exact TT|]. unfold continuous. destruct (pt_eqb (sj s') (si t') || pt_eqb (si s') (sj t')) eqn:Q.
  - assert (H : sj s' = si t' \/ si s' = sj t') by (apply orb_true_iff in Q; rewrite !cpt_is in Q by auto; exact Q). destruct (touch s' t') eqn:K; [split; auto|]. exfalso. assert (false = true) by (apply TT; destruct H; auto). discriminate.
  - assert (H : ~ (sj s' = si t' \/ si s' = sj t')) by (intros H; rewrite <- !cpt_is, <- orb_true_iff in H by auto; congruence). destruct (touch s' t'); split; intros; (discriminate || contradiction).
Qed.
Definition cpoly (l : list (seg (FA L))) (l' : list (seg RA)) : Prop := Forall2 cseg l l'.
Lemma cpoly_points : forall l l', cpoly l l' -> Forall2 cpt (all_points l) (all_points l') /\ Forall2 cpt (point_set l) (point_set l').
Proof.
  intros l l' E. assert (A : Forall2 cpt (all_points l) (all_points l')).
  { unfold all_points. apply rel_sort; [apply cpt_lex|]. induction E as [|s t l l' E _ IH]; [constructor|]. change (Forall2 cpt (ij s ++ flat_map ij l) (ij t ++ flat_map ij l')). apply Forall2_app; [apply (cseg_ij s t E)|exact IH]. }
  split; [exact A|]. unfold point_set. apply rel_sort; [apply cpt_lex|]. apply rel_dedup; [apply cpt_same|exact A].
Qed.
Lemma cpoly_continuous : forall l l', cpoly l l' -> iscontinuous l = iscontinuous l'.
Proof.
  intros l l' E. unfold iscontinuous. apply (rel_forallb (fun a b => cseg (fst a) (fst b) /\ cseg (snd a) (snd b))); [apply rel_pairs; exact E|]. intros [x y] [x' y'] [H1 H2]. apply (cseg_touch _ _ _ _ H1 H2).
Qed.
Lemma cpoly_closed : forall l l', cpoly l l' -> isclosed l = isclosed l' /\ isopen l = isopen l'.
Proof.
  intros l l' E. assert (C : isclosed l = isclosed l').
  { unfold isclosed. rewrite (cpoly_continuous l l' E). destruct (iscontinuous l'); [|reflexivity]. destruct E as [|s t l l' E F]; [reflexivity|]. unfold first_point, last_point, first_segment, last_segment, get, last_opt. simpl.
    f_equal. apply cpt_eq; [apply E|]. assert (K : cseg (last l s) (last l' t)) by (apply rel_last; auto). apply K. }
  split; [exact C|]. unfold isopen. rewrite C. reflexivity.
Qed.
Lemma cpoly_close : forall l l', cpoly l l' -> match close l, close l' with Ok r, Ok r' => cpoly r r' | Err e, Err e' => e = e' | _, _ => False end.
Proof.
  intros l l' E. unfold close. rewrite (proj2 (cpoly_closed l l' E)). destruct (isopen l') as [[|]|e]; simpl; auto. destruct E as [|s t l l' E F]; [reflexivity|].
  unfold first_point, last_point, first_segment, last_segment, get, last_opt. simpl. constructor; [exact E|]. apply Forall2_app; [exact F|]. constructor; [|constructor].
  assert (K : cseg (last l s) (last l' t)) by (apply rel_last; auto). split; [reflexivity|]. split; simpl; [apply K|apply E].
Qed.
End Clear.
Lemma cpoly_intro : forall L U l l', Forall2 stands_seg l l' -> (forall q, In q (flat_map ij l') -> stored q /\ moderate q) -> incl (flat_map ij l') U -> cpoly L U l l'.
Proof.
  intros L U l l' H SM I. induction H as [|s t l l' (C & H1 & H2) _ IH]; [constructor|]. constructor.
  - split; [exact C|]. split; (split; [assumption|]); [destruct (SM (si t)) as [A B]; [simpl; auto|]|destruct (SM (sj t)) as [A B]; [simpl; auto|]]; (split; [exact A|]; split; [exact B|]); apply I; simpl; auto.
  - apply IH; [intros q K; apply SM; simpl; auto|]. intros q K. apply I. simpl. auto.
Qed.
Lemma cpt_elim : forall L U l l', Forall2 (cpt L U) l l' -> Forall2 stands_pt l l'.
Proof. intros L U l l' H. induction H as [|p q l l' [H _] _ IH]; constructor; auto. Qed.
Lemma cpoly_elim : forall L U l l', cpoly L U l l' -> Forall2 stands_seg l l'.
Proof. intros L U l l' H. induction H as [|p q l l' (C & [H1 _] & [H2 _]) _ IH]; constructor; auto. split; auto. Qed.
(*@ C89_chain *)
(** C89: coordinates with up to 8 decimals and up to 10^6, points identical or more than 1e-5 apart: the
    program finds a chain of segments continuous exactly if consecutive segments share an end, tells
    closed from open as with exact numbers, closes the same chains by the same segment, and lists the
    same points and the same segments at a point, all in the same order. *)
Lemma chain_double : forall L (l : list (seg (FA L))) (l' : list (seg RA)) (p : pt (FA L)) (p' : pt RA), Forall2 stands_seg l l' -> stands_pt p p' ->
  (forall q, q = p' \/ In q (flat_map ij l') -> stored q /\ moderate q) -> (forall a b, a = p' \/ In a (flat_map ij l') -> b = p' \/ In b (flat_map ij l') -> clear_of a b) ->
  (iscontinuous l = true <-> forall s t, In (s, t) (pairs l') -> sj s = si t \/ si s = sj t) /\
  isclosed l = isclosed l' /\ isopen l = isopen l' /\
  (forall r', close l' = Ok r' -> exists r, close l = Ok r /\ Forall2 stands_seg r r') /\
  Forall2 stands_pt (all_points l) (all_points l') /\ Forall2 stands_pt (point_set l) (point_set l') /\
  (forall w, Forall2 stands_seg (find_segment_by_point l p w) (find_segment_by_point l' p' w)).
Proof.
  intros L l l' p p' H P SM CL. set (U := p' :: flat_map ij l').
  assert (HU : forall a b, In a U -> In b U -> clear_of a b) by (intros a b [<-|Ia] [<-|Ib]; apply CL; auto).
  assert (E : cpoly L U l l') by (apply cpoly_intro; [exact H|intros q I; apply SM; auto|intros q I; right; exact I]).
  assert (EP : cpt L U p p') by (destruct (SM p' (or_introl eq_refl)); split; [exact P|]; split; [assumption|]; split; [assumption|]; left; reflexivity).
  destruct (cpoly_closed L U HU l l' E) as [C1 C2]. destruct (cpoly_points L U l l' E) as [P1 P2].
  split.
  { unfold iscontinuous. pose proof (rel_pairs _ _ _ E) as RP. clear - RP HU. induction RP as [|[a b] [c d] m m' [Q1 Q2] _ IH]; simpl; [split; [intros _ s t []|reflexivity]|]. rewrite andb_true_iff, IH. simpl in *.
    rewrite (proj2 (cseg_touch L U HU _ _ _ _ Q1 Q2)). rewrite (proj2 (cseg_touch_is U HU c d ltac:(
      intros q I; destruct Q1 as (_ & (_ & A1 & A2 & A3) & (_ & B1 & B2 & B3)); destruct Q2 as (_ & (_ & C1 & C2 & C3) & (_ & D1 & D2 & D3)); unfold ij in I; simpl in I; destruct I as [<-|[<-|[<-|[<-|[]]]]]; auto))). split.
    - intros [H1 H2] s t [I|I]; [injection I as <- <-; exact H1|apply H2; exact I].
    - intros H0. split; [apply H0; left; reflexivity|]. intros s t I. apply H0. right. exact I. }
  split; [exact C1|]. split; [exact C2|]. split.
  { intros r' R'. pose proof (cpoly_close L U HU l l' E) as K. rewrite R' in K. destruct (close l) as [r|e]; [|destruct K]. exists r. split; [reflexivity|]. apply (cpoly_elim L U). exact K. }
  split; [apply (cpt_elim L U); exact P1|]. split; [apply (cpt_elim L U); exact P2|].
  assert (Q : forall s t, cseg L U s t -> pt_eqb p (si s) = pt_eqb p' (si t) /\ pt_eqb p (sj s) = pt_eqb p' (sj t)) by (intros s t (_ & A & B); split; apply (cpt_eq L U HU); auto).
  assert (QE : forall s t, cseg L U s t -> existsb (pt_eqb p) (ij s) = existsb (pt_eqb p') (ij t)) by (intros s t A; unfold ij; cbn [existsb]; destruct (Q s t A) as [-> ->]; reflexivity).
  assert (W : forall w, cpoly L U (find_segment_by_point l p w) (find_segment_by_point l' p' w)).
  { intros w. unfold find_segment_by_point. assert (K : Forall2 (cseg L U) (filter (fun s => existsb (pt_eqb p) (ij s)) l) (filter (fun s => existsb (pt_eqb p') (ij s)) l')) by (apply rel_filter; [exact E|exact QE]).
    destruct w; (apply rel_filter; [exact K|]); [intros s t A; apply (Q s t A)|intros s t A; apply (Q s t A)|exact QE]. }
  intros w. apply (cpoly_elim L U). apply W.
Qed.

(** * Three decimals *)
Lemma milli_eps : forall L x y u v, stands x u -> stands y v -> milli u -> milli v ->
  SFltb (Fsub x (EPS (A := FA L))) y = Rltb (u - 1 / 10 ^ 8) v /\ SFleb (Fsub x (EPS (A := FA L))) y = Rleb (u - 1 / 10 ^ 8) v /\ SFleb y (Fadd x (EPS (A := FA L))) = Rleb v (u + 1 / 10 ^ 8).
Proof.
  intros L x y u v Sx Sy Du Dv. destruct (eps_double L) as [ED EV]. set (e := EPS (A := FA L)) in *. clearbody e. destruct (milli_d8 u Du) as [_ Bu]. destruct (milli_d8 v Dv) as [_ Bv]. pose proof (milli_gap u v Du Dv) as G.
  pose proof (st_err x u Sx ltac:(lra)) as Ex. pose proof (st_err y v Sy ltac:(lra)) as Ey. unfold eps in *.
  assert (EE : Rabs (value e) <= 1) by (apply Rabs_le; lra).
  assert (B1 : Rabs (value x - value e) <= 4194304) by (apply Rabs_le_inv in Bu, Ex, EE; apply Rabs_le; lra).
  assert (B2 : Rabs (value x + value e) <= 4194304) by (apply Rabs_le_inv in Bu, Ex, EE; apply Rabs_le; lra).
  destruct (fsub x e (proj1 Sx) ED (big _ B1)) as [S1 S2]. destruct (fadd x e (proj1 Sx) ED (big _ B2)) as [A1 A2]. pose proof (rnd_err _ B1) as Q1. pose proof (rnd_err _ B2) as Q2. rewrite <- S2 in Q1. rewrite <- A2 in Q2.
  rewrite fltb, !fleb by (auto; apply Sy). unfold eps in *.
  assert (C : u = v \/ u <= v - 1 / 1000 \/ v + 1 / 1000 <= u).
  { destruct (Req_EM_T u v) as [H|H]; [left; exact H|right]. specialize (G H). unfold Rabs in G. destruct (Rcase_abs (u - v)); [left|right]; lra. }
  assert (XY : u = v -> value x = value y) by (intros ->; rewrite (proj2 Sx), (proj2 Sy); reflexivity).
  apply Rabs_le_inv in Q1, Q2, Ex, Ey. clear - C XY Q1 Q2 Ex Ey EV. set (a := value (Fsub x e)) in *. set (b := value (Fadd x e)) in *. set (xv := value x) in *. set (yv := value y) in *. clearbody a b xv yv.
  unfold Rltb, Rleb. destruct C as [C|[C|C]]; [specialize (XY C)|clear XY|clear XY]; repeat split.
  all: match goal with |- context [Rlt_dec ?a ?b] => destruct (Rlt_dec a b) | |- context [Rle_dec ?a ?b] => destruct (Rle_dec a b) end; try (exfalso; lra).
  all: first [apply Rlt_bool_true; lra|apply Rlt_bool_false; lra|apply Rle_bool_true; lra|apply Rle_bool_false; lra].
Qed.
Lemma milli_minmax : forall L x y u v, stands x u -> stands y v -> milli u -> milli v ->
  stands (nmin (A := FA L) x y) (Rmin u v) /\ stands (nmax (A := FA L) x y) (Rmax u v) /\ milli (Rmin u v) /\ milli (Rmax u v).
Proof.
  intros L x y u v E F Du Dv. unfold nmin, nmax. destruct (milli_d8 u Du). destruct (milli_d8 v Dv).
  pose proof (st_lt y x v u F E ltac:(auto) ltac:(auto) ltac:(lra) ltac:(lra)) as H1'. pose proof (st_lt x y u v E F ltac:(auto) ltac:(auto) ltac:(lra) ltac:(lra)) as H2'.
  change (@nltb (FA L) y x) with (SFltb y x). change (@nltb (FA L) x y) with (SFltb x y). rewrite H1', H2'. unfold Rmin, Rmax, Rltb.
  destruct (Rlt_dec v u), (Rlt_dec u v), (Rle_dec u v); try (exfalso; lra); auto. assert (u = v) by lra. subst. auto.
Qed.
(*@ C89_three *)
(** C89: coordinates with three decimals up to 1000: on the line, left of it, and inside the bounding box
    of the segment are answered exactly, and so is right of it unless the Point is on the line. *)
Lemma three_exact : forall L (s : seg (FA L)) (p : pt (FA L)) (s' : seg RA) (p' : pt RA), stands_seg s s' -> stands_pt p p' -> milli_seg s' -> milli_pt p' ->
  exists on left, is_point_on_line s p = Ok on /\ is_point_to_left s p = Ok left /\
    (on = true <-> orient (si s') (sj s') p' = 0) /\ (left = true <-> 0 < orient (si s') (sj s') p') /\
    (orient (si s') (sj s') p' <> 0 -> (is_point_to_right s p = true <-> orient (si s') (sj s') p' < 0)) /\
    (ls_is_internal_point s p = true <-> Rmin (px (si s')) (px (sj s')) <= px p' <= Rmax (px (si s')) (px (sj s')) /\ Rmin (py (si s')) (py (sj s')) <= py p' <= Rmax (py (si s')) (py (sj s'))).
Proof.
  intros L s p s' p' E P D Dp. destruct D as [D1 D2].
  assert (BD : forall q, milli_pt q -> Rabs (px q) <= 1000 /\ Rabs (py q) <= 1000) by (intros q [A B]; destruct (milli_d8 _ A), (milli_d8 _ B); auto).
  assert (HB : forall q, In q [si s'; sj s'; p'] -> Rabs (px q) <= 1000 /\ Rabs (py q) <= 1000) by (intros q [<-|[<-|[<-|[]]]]; apply BD; auto).
  destruct (error_right L s p s' p' E P HB) as [R1 R2].
  destruct (error_cross L s (LineSegment (si s) p) s' (LineSegment (si s') p')) as (K1 & K2 & _); [exact E|split; [reflexivity|split; [apply E|exact P]]|simpl; intros q I; apply HB; simpl; tauto|].
  cbn [LineSegment si sj] in K2. fold (orient (si s') (sj s') p') in K2. set (x := crossproduct s (LineSegment (si s) p)) in *. set (O := orient (si s') (sj s') p') in *.
  assert (GAP : O = 0 \/ 1 / 1000000 <= Rabs O) by (apply milli_orient; auto).
  destruct (eps_double L) as [ED EV]. destruct (fabs x K1) as [F1 F2].
  assert (CE : SFltb (SFabs x) (EPS (A := FA L)) = true <-> O = 0).
  { rewrite fltb, F2 by auto. set (e := value (EPS (A := FA L))) in *. clearbody e. split.
    - intros H. destruct GAP as [G|G]; [exact G|exfalso]. destruct (Rlt_bool_spec (Rabs (value x)) e) as [Q|Q]; [|discriminate]. unfold Rabs in *. destruct (Rcase_abs O), (Rcase_abs (value x)), (Rcase_abs (value x - O)); lra.
    - intros Z. rewrite Z in K2. apply Rlt_bool_true. rewrite Rminus_0_r in K2. lra. }
  destruct (milli_stored _ D1) as [T1 M1]. destruct (milli_stored _ D2) as [T2 M2]. destruct (milli_stored _ Dp) as [T3 M3].
  assert (EQ : forall (q : pt (FA L)) q', stands_pt q q' -> milli_pt q' -> (pt_eqb p q = true <-> p' = q')).
  { intros q q' A B. destruct (milli_stored _ B) as [T M]. destruct (compare_double L p q p' q' P A T3 T M3 M) as (_ & _ & C). apply C. apply milli_clear; auto. }
  assert (EI := EQ _ _ (proj1 (proj2 E)) D1). assert (EJ := EQ _ _ (proj2 (proj2 E)) D2).
  assert (ON : exists on, is_point_on_line s p = Ok on /\ (on = true <-> O = 0)).
  { unfold is_point_on_line. destruct (pt_eqb p (si s) || pt_eqb p (sj s)) eqn:Q.
    - exists true. split; [reflexivity|]. split; [intros _|reflexivity]. apply orb_true_iff in Q. rewrite EI, EJ in Q. unfold O. destruct Q as [-> | ->]; unfold orient; ring.
    - unfold crossproduct_commonstart, LineSegment. cbn [si sj]. destruct (compare_double L (si s) (si s) (si s') (si s') (proj1 (proj2 E)) (proj1 (proj2 E)) T1 T1 M1 M1) as (_ & _ & C). rewrite (proj2 (C (or_introl eq_refl)) eq_refl). cbn [assert_ bind].
      eexists. split; [reflexivity|]. exact CE. }
  destruct ON as (on & O1 & O2). unfold is_point_to_left. rewrite O1. cbn [bind]. exists on. eexists. split; [reflexivity|]. split; [reflexivity|]. split; [exact O2|].
  assert (RI : O <> 0 -> (is_point_to_right s p = true <-> O < 0)).
  { intros N. destruct GAP as [G|G]; [contradiction|]. unfold Rabs in G. destruct (Rcase_abs O) as [H|H].
    - rewrite R1 by lra. split; auto.
    - rewrite R2 by lra. split; [discriminate|lra]. }
  split.
  { destruct on.
    - split; [discriminate|]. intros H. pose proof (proj1 O2 eq_refl). lra.
    - assert (N : O <> 0) by (intros Z; apply O2 in Z; discriminate). specialize (RI N). destruct (is_point_to_right s p); simpl; split; intros H; try discriminate; auto.
      + pose proof (proj1 RI eq_refl). lra.
      + destruct (Rtotal_order 0 O) as [G|[G|G]]; [exact G|symmetry in G; contradiction|apply RI in G; discriminate]. }
  split; [exact RI|].
  destruct E as (_ & [EX1 EY1] & [EX2 EY2]). destruct P as [PX PY]. destruct D1 as [DX1 DY1]. destruct D2 as [DX2 DY2]. destruct Dp as [DPX DPY].
  destruct (milli_minmax L _ _ _ _ EX1 EX2 DX1 DX2) as (X1 & X2 & X3 & X4). destruct (milli_minmax L _ _ _ _ EY1 EY2 DY1 DY2) as (Y1 & Y2 & Y3 & Y4).
  pose proof (milli_eps L _ _ _ _ X1 PX X3 DPX) as (H1 & _ & _). pose proof (milli_eps L _ _ _ _ X2 PX X4 DPX) as (_ & _ & H2). pose proof (milli_eps L _ _ _ _ Y1 PY Y3 DPY) as (_ & H3 & _). pose proof (milli_eps L _ _ _ _ Y2 PY Y4 DPY) as (_ & _ & H4).
  assert (EQV : ls_is_internal_point s p = Rltb (Rmin (px (si s')) (px (sj s')) - 1 / 10 ^ 8) (px p') && Rleb (px p') (Rmax (px (si s')) (px (sj s')) + 1 / 10 ^ 8) && (Rleb (Rmin (py (si s')) (py (sj s')) - 1 / 10 ^ 8) (py p') && Rleb (py p') (Rmax (py (si s')) (py (sj s')) + 1 / 10 ^ 8))).
  { unfold ls_is_internal_point. cbv zeta. assert (Z : forall a a' b b' c c' d d' : bool, a = a' -> b = b' -> c = c' -> d = d' -> (a && b && (c && d)) = (a' && b' && (c' && d'))) by (intros; subst; reflexivity). apply Z; assumption. }
  rewrite EQV, !andb_true_iff, Rltb_true, !Rleb_true.
  assert (CC : forall u v, milli u -> milli v -> u = v \/ u <= v - 1 / 1000 \/ v + 1 / 1000 <= u).
  { intros u v A B. destruct (Req_EM_T u v) as [H|H]; [left; exact H|right]. pose proof (milli_gap u v A B H) as K. unfold Rabs in K. destruct (Rcase_abs (u - v)); [left|right]; lra. }
  pose proof (CC _ _ X3 DPX) as A1. pose proof (CC _ _ X4 DPX) as A2. pose proof (CC _ _ Y3 DPY) as A3. pose proof (CC _ _ Y4 DPY) as A4. clear - A1 A2 A3 A4. split; [intros [[G1 G2] [G3 G4]]|intros [[G1 G2] [G3 G4]]]; repeat split; lra.
Qed.
(*@ C89_collinear *)
(** C89: coordinates with three decimals up to 1000: whether two segments are collinear is answered exactly. *)
Lemma three_collinear : forall L (s t : seg (FA L)) (s' t' : seg RA), stands_seg s s' -> stands_seg t t' -> milli_seg s' -> milli_seg t' ->
  exists col, is_collinear s t = Ok col /\ (col = true <-> orient (si s') (sj s') (si t') = 0 /\ orient (si s') (sj s') (sj t') = 0).
Proof.
  intros L s t s' t' E (_ & F1 & F2) D [G1 G2]. destruct (three_exact L s (si t) s' (si t') E F1 D G1) as (o1 & _ & O1 & _ & H1 & _). destruct (three_exact L s (sj t) s' (sj t') E F2 D G2) as (o2 & _ & O2 & _ & H2 & _).
  unfold is_collinear, ij. cbn [mapM]. rewrite O1, O2. cbn [bind]. eexists. split; [reflexivity|]. simpl. rewrite andb_true_r, andb_true_iff, H1, H2. reflexivity.
Qed.
(*@ C89_right_refuted *)
(** C89, limit: a Point on the line can be reported to be right of it, also with one decimal: (0.2, 0.3)
    and the segment from (0, 0.1) to (0.1, 0.2). *)
Lemma right_refuted : forall L : Libm,
  let P x y : pt (FA L) := Point_new (A := FA L) x y in
  let s := LineSegment (P (FofZ 0) (Fdec 1 10)) (P (Fdec 1 10) (Fdec 2 10)) in let p := P (Fdec 2 10) (Fdec 3 10) in
  is_point_on_line s p = Ok true /\ is_point_to_right s p = true.
Proof. intros L P s p. split; vm_compute; reflexivity. Qed.
(*@ex C89_example *)
(** C89: a chain of two segments with one decimal and a Point left of the first: the hypotheses of
    C89_chain and C89_three hold. *)
Lemma three_example : forall L : Libm,
  let P x y : pt (FA L) := @mkpt (FA L) x y in let Q x y : pt RA := @mkpt RA x y in
  let a := P (FofZ 0) (Fdec 1 10) in let b := P (Fdec 1 10) (Fdec 2 10) in let c := P (Fdec 3 10) (Fdec 7 10) in
  let a' := Q 0 (1 / 10) in let b' := Q (1 / 10) (2 / 10) in let c' := Q (3 / 10) (7 / 10) in
  let l := [LineSegment a b; LineSegment b c] in let l' := [LineSegment a' b'; LineSegment b' c'] in
  Forall2 stands_seg l l' /\ Forall milli_seg l' /\ stands_pt c c' /\ milli_pt c' /\ 0 < orient a' b' c' /\
  (forall q, q = c' \/ In q (flat_map ij l') -> stored q /\ moderate q) /\
  (forall p q, p = c' \/ In p (flat_map ij l') -> q = c' \/ In q (flat_map ij l') -> clear_of p q).
Proof.
  intros L P Q a b c a' b' c' l l'.
  assert (Z0 : stands (FofZ 0) 0) by (replace 0 with (0 / 100000000) by lra; sdec 0%Z).
  assert (Z1 : stands (Fdec 1 10) (1 / 10)) by (replace (1 / 10) with (10000000 / 100000000) by lra; sdec 10000000%Z).
  assert (Z2 : stands (Fdec 2 10) (2 / 10)) by (replace (2 / 10) with (20000000 / 100000000) by lra; sdec 20000000%Z).
  assert (Z3 : stands (Fdec 3 10) (3 / 10)) by (replace (3 / 10) with (30000000 / 100000000) by lra; sdec 30000000%Z).
  assert (Z7 : stands (Fdec 7 10) (7 / 10)) by (replace (7 / 10) with (70000000 / 100000000) by lra; sdec 70000000%Z).
  assert (MK : forall k u, (Z.abs k <= 1000000)%Z -> u = IZR k / 1000 -> milli u) by (intros k u A B; exists k; auto).
  assert (Y0 : milli 0) by (apply (MK 0%Z); [lia|lra]). assert (Y1 : milli (1 / 10)) by (apply (MK 100%Z); [lia|lra]). assert (Y2 : milli (2 / 10)) by (apply (MK 200%Z); [lia|lra]). assert (Y3 : milli (3 / 10)) by (apply (MK 300%Z); [lia|lra]). assert (Y7 : milli (7 / 10)) by (apply (MK 700%Z); [lia|lra]).
  assert (A1 : stands_pt a a' /\ milli_pt a') by (split; split; assumption). assert (A2 : stands_pt b b' /\ milli_pt b') by (split; split; assumption). assert (A3 : stands_pt c c' /\ milli_pt c') by (split; split; assumption).
  destruct A1 as [A1 B1], A2 as [A2 B2], A3 as [A3 B3].
  split; [apply Forall2_cons; [split; [reflexivity|split; assumption]|]; apply Forall2_cons; [split; [reflexivity|split; assumption]|]; apply Forall2_nil|].
  split; [apply Forall_cons; [split; assumption|]; apply Forall_cons; [split; assumption|]; apply Forall_nil|]. split; [exact A3|]. split; [exact B3|].
  split; [unfold orient; simpl; lra|].
  assert (AM : forall q, q = c' \/ In q (flat_map ij l') -> milli_pt q) by (intros q [-> |I]; [exact B3|]; simpl in I; destruct I as [<-|[<-|[<-|[<-|[]]]]]; assumption).
  split; [intros q I; apply milli_stored; auto|intros p q I J; apply milli_clear; auto].
Qed.
