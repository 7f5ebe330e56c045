(** Rays of is_internal_point in binary64 on polygons with whole coordinates. *)
From Coq Require Import ZArith Reals Lra Lia Bool List Permutation Arith Psatz Floats.SpecFloat.
From Flocq Require Import Core BinarySingleNaN Relative.
From Verif Require Import Base Arith ArithR ArithF MPoint MLine MPoly MHeap Spec SpecHeap SpecDouble SpecWhole SpecInside SpecRay PPoint PLine PTrig PCommon PShape PConvex POrder PHull PFlocq PHeap PDouble PExact PWhole PInside.
From Verif Require PWholeLoops.
Import ListNotations.
Local Open Scope R_scope.
#[local] Existing Instance RA.
#[local] Existing Instance P53.
#[local] Existing Instance P1024.

(** * Errors *)
(** x is within e of u, and u is at most B in size. *)
Definition ap (e B : R) (x : F) (u : R) : Prop := double x /\ Rabs (value x - u) <= e /\ Rabs u <= B.
Lemma b60 : bpow radix2 60 = 1152921504606846976.
Proof. reflexivity. Qed.
Lemma ap_exact : forall B x u, exactly x u -> Rabs u <= B -> ap 0 B x u.
Proof. intros B x u [D V] H. split; [exact D|]. split; [rewrite V, Rminus_diag_eq, Rabs_R0 by reflexivity; lra|exact H]. Qed.
Lemma ap_weaken : forall e B e' B' x u, ap e B x u -> e <= e' -> B <= B' -> ap e' B' x u.
Proof. intros e B e' B' x u (D & E & H) E' B2. split; [exact D|]. split; lra. Qed.
Lemma abs_err : forall a u e B, Rabs (a - u) <= e -> Rabs u <= B -> Rabs a <= B + e.
Proof. intros a u e B H1 H2. replace a with (u + (a - u)) by ring. eapply Rle_trans; [apply Rabs_triang|]. lra. Qed.
Lemma ap_sub : forall e1 B1 e2 B2 x y u v, ap e1 B1 x u -> ap e2 B2 y v -> B1 + B2 + (e1 + e2) <= 1000000000000000000 ->
  ap (e1 + e2 + ((B1 + B2 + (e1 + e2)) / 2 ^ 53 + / 2 ^ 100)) (B1 + B2) (Fsub x y) (u - v).
Proof.
  intros e1 B1 e2 B2 x y u v (Dx & Ex & Bx) (Dy & Ey & By) K.
  assert (E : Rabs ((value x - value y) - (u - v)) <= e1 + e2) by (replace ((value x - value y) - (u - v)) with ((value x - u) - (value y - v)) by ring; eapply Rle_trans; [apply Rabs_triang|]; rewrite Rabs_Ropp; lra).
  assert (Bu : Rabs (u - v) <= B1 + B2) by (eapply Rle_trans; [apply Rabs_triang|]; rewrite Rabs_Ropp; lra).
  pose proof (abs_err _ _ _ _ E Bu) as A. destruct (fsub x y Dx Dy) as [F1 F2]; [rewrite b60; lra|]. split; [exact F1|]. split; [|exact Bu]. rewrite F2.
  pose proof (rnd_rel (value x - value y)) as R1. replace (nearest (value x - value y) - (u - v)) with ((nearest (value x - value y) - (value x - value y)) + ((value x - value y) - (u - v))) by ring.
  eapply Rle_trans; [apply Rabs_triang|]. assert (Rabs (value x - value y) / 2 ^ 53 <= (B1 + B2 + (e1 + e2)) / 2 ^ 53) by (unfold Rdiv; apply Rmult_le_compat_r; [left; apply Rinv_0_lt_compat; lra|exact A]). lra.
Qed.
Lemma ap_mul : forall e1 B1 e2 B2 x y u v, ap e1 B1 x u -> ap e2 B2 y v -> B1 * B2 + (e1 * B2 + e2 * B1 + e1 * e2) <= 1000000000000000000 ->
  ap (e1 * B2 + e2 * B1 + e1 * e2 + ((B1 * B2 + (e1 * B2 + e2 * B1 + e1 * e2)) / 2 ^ 53 + / 2 ^ 100)) (B1 * B2) (Fmul x y) (u * v).
Proof.
  intros e1 B1 e2 B2 x y u v (Dx & Ex & Bx) (Dy & Ey & By) K.
  assert (E : Rabs ((value x * value y) - (u * v)) <= e1 * B2 + e2 * B1 + e1 * e2).
  { replace ((value x * value y) - (u * v)) with ((value x - u) * v + ((value y - v) * u + (value x - u) * (value y - v))) by ring. eapply Rle_trans; [apply Rabs_triang|]. rewrite Rplus_assoc. apply Rplus_le_compat; [rewrite Rabs_mult; apply Rmult_le_compat; auto using Rabs_pos|].
    eapply Rle_trans; [apply Rabs_triang|]. apply Rplus_le_compat; rewrite Rabs_mult; apply Rmult_le_compat; auto using Rabs_pos. }
  assert (Bu : Rabs (u * v) <= B1 * B2) by (rewrite Rabs_mult; apply Rmult_le_compat; auto using Rabs_pos).
  pose proof (abs_err _ _ _ _ E Bu) as A. destruct (fmul x y Dx Dy) as [F1 F2]; [rewrite b60; lra|]. split; [exact F1|]. split; [|exact Bu]. rewrite F2.
  pose proof (rnd_rel (value x * value y)) as R1. replace (nearest (value x * value y) - (u * v)) with ((nearest (value x * value y) - (value x * value y)) + ((value x * value y) - (u * v))) by ring.
  eapply Rle_trans; [apply Rabs_triang|]. assert (Rabs (value x * value y) / 2 ^ 53 <= (B1 * B2 + (e1 * B2 + e2 * B1 + e1 * e2)) / 2 ^ 53) by (unfold Rdiv; apply Rmult_le_compat_r; [left; apply Rinv_0_lt_compat; lra|exact A]). lra.
Qed.
(** The rounded quotient of two doubles. *)
Lemma quot_double : forall x y, double x -> double y -> value y <> 0 -> Rabs (value x / value y) <= 2 ^ 55 -> fair (Fround8 (Fdiv x y)) (value x / value y).
Proof.
  intros x y Dx Dy NZ Bq. set (q := value x / value y) in *.
  destruct (fdiv x y Dx Dy NZ) as [F1 F2]; [fold q; rewrite b60; lra|].
  fold q in F2. pose proof (rnd_rel q) as R1. rewrite <- F2 in R1. set (w := Fdiv x y) in *. clearbody w.
  destruct (fround8 w F1) as [G1 G2]. split; [exact G1|]. set (v := value (Fround8 w)) in *. set (z := IZR (ZnearestE (value w * 10 ^ 8)) / 10 ^ 8) in *.
  assert (R2 : Rabs (z - value w) <= 5 / 10 ^ 9).
  { pose proof (Znearest_half (fun n => negb (Z.even n)) (value w * 10 ^ 8)) as H. unfold z. replace (IZR (ZnearestE (value w * 10 ^ 8)) / 10 ^ 8 - value w) with (- (value w * 10 ^ 8 - IZR (ZnearestE (value w * 10 ^ 8))) * / 10 ^ 8) by field.
    rewrite Rabs_mult, Rabs_Ropp, (Rabs_pos_eq (/ 10 ^ 8)) by (left; apply Rinv_0_lt_compat; lra). lra. }
  pose proof (rnd_rel z) as R3. rewrite <- G2 in R3. clear - R1 R2 R3.
  assert (Z : Rabs z <= Rabs q + (Rabs (z - value w) + Rabs (value w - q))).
  { replace z with (q + ((z - value w) + (value w - q))) at 1 by ring. eapply Rle_trans; [apply Rabs_triang|]. apply Rplus_le_compat_l. apply Rabs_triang. }
  replace (v - q) with ((v - z) + ((z - value w) + (value w - q))) by ring. eapply Rle_trans; [apply Rabs_triang|]. 
  assert (T : Rabs (z - value w + (value w - q)) <= Rabs (z - value w) + Rabs (value w - q)) by apply Rabs_triang. pose proof (Rabs_pos q). lra.
Qed.
(** The quotient of two approximations. *)
Lemma quot_err : forall n d N D en ed, Rabs (n - N) <= en -> Rabs (d - D) <= ed -> ed <= / 2 -> 1 <= Rabs D -> d <> 0 /\ Rabs (n / d - N / D) <= (en + Rabs (N / D) * ed) / (Rabs D - ed).
Proof.
  intros n d N D en ed HN HD HE H1. assert (Dn : D <> 0) by (intros E; rewrite E, Rabs_R0 in H1; lra).
  assert (d0 : Rabs D - ed <= Rabs d) by (replace D with (d - (d - D)) by ring; eapply Rle_trans; [apply Rplus_le_compat_r, Rabs_triang|]; rewrite Rabs_Ropp; lra).
  assert (dn : d <> 0) by (intros E; rewrite E, Rabs_R0 in d0; lra). split; [exact dn|].
  replace (n / d - N / D) with (((n - N) - N / D * (d - D)) * / d) by (field; auto). rewrite Rabs_mult, Rabs_inv. unfold Rdiv at 2. apply Rmult_le_compat; [apply Rabs_pos|left; apply Rinv_0_lt_compat; lra| |apply Rinv_le_contravar; lra].
  eapply Rle_trans; [apply Rabs_triang|]. rewrite Rabs_Ropp, Rabs_mult. apply Rplus_le_compat; [exact HN|]. apply Rmult_le_compat_l; [apply Rabs_pos|exact HD].
Qed.
(** * The intersection point of a ray and a side *)
Section Ip.
Variable L : Libm.
Variables x1 y1 x2 y2 x3 y3 x4 y4 : F.
Variables a1 b1 X Y a3 b3 a4 b4 : R.
Hypothesis E1 : exactly x1 a1.
Hypothesis E1' : exactly y1 b1.
Hypothesis E2 : exactly x2 X.
Hypothesis E2' : exactly y2 Y.
Hypothesis E3 : exactly x3 a3.
Hypothesis E3' : exactly y3 b3.
Hypothesis E4 : exactly x4 a4.
Hypothesis E4' : exactly y4 b4.
Hypothesis B1 : Rabs a1 <= 2000.
Hypothesis B1' : Rabs b1 <= 2000.
Hypothesis B2 : Rabs X <= 1000000.
Hypothesis B2' : Rabs Y <= 100000.
Hypothesis B3 : Rabs a3 <= 2000.
Hypothesis B3' : Rabs b3 <= 2000.
Hypothesis B4 : Rabs a4 <= 2000.
Hypothesis B4' : Rabs b4 <= 2000.
Let D := (a1 - X) * (b3 - b4) - (b1 - Y) * (a3 - a4).
Let NX := (a1 * Y - b1 * X) * (a3 - a4) - (a1 - X) * (a3 * b4 - b3 * a4).
Let NY := (a1 * Y - b1 * X) * (b3 - b4) - (b1 - Y) * (a3 * b4 - b3 * a4).
Ltac aps := match goal with
  | |- ap _ _ (Fsub _ _) _ => eapply ap_sub; [aps|aps|lra]
  | |- ap _ _ (Fmul _ _) _ => eapply ap_mul; [aps|aps|lra]
  | |- _ => eapply ap_exact; eassumption
  end.
Lemma den_ap : ap (3 / 10 ^ 6) 4500000000 (Fsub (Fmul (Fsub x1 x2) (Fsub y3 y4)) (Fmul (Fsub y1 y2) (Fsub x3 x4))) D.
Proof. eapply ap_weaken; [unfold D; aps|lra|lra]. Qed.
Lemma cross_ap : ap (3 / 10 ^ 6) 4500000000 (Fsub (Fmul (Fsub x2 x1) (Fsub y4 y3)) (Fmul (Fsub y2 y1) (Fsub x4 x3))) D.
Proof. eapply ap_weaken; [replace D with ((X - a1) * (b4 - b3) - (Y - b1) * (a4 - a3)) by (unfold D; ring); aps|lra|lra]. Qed.
Lemma numx_ap : ap (12 / 1000) 17000000000000 (Fsub (Fmul (Fsub (Fmul x1 y2) (Fmul y1 x2)) (Fsub x3 x4)) (Fmul (Fsub x1 x2) (Fsub (Fmul x3 y4) (Fmul y3 x4)))) NX.
Proof. eapply ap_weaken; [unfold NX; aps|lra|lra]. Qed.
Lemma numy_ap : ap (12 / 1000) 17000000000000 (Fsub (Fmul (Fsub (Fmul x1 y2) (Fmul y1 x2)) (Fsub y3 y4)) (Fmul (Fsub y1 y2) (Fsub (Fmul x3 y4) (Fmul y3 x4)))) NY.
Proof. eapply ap_weaken; [unfold NY; aps|lra|lra]. Qed.
End Ip.
(** The error bound for a coordinate q of the intersection point. *)
Definition ray_err (D q : R) : R := (13 / 1000 + 4 / 10 ^ 6 * Rabs q) / Rabs D + (52 / 10 ^ 10 + Rabs q / 10 ^ 15).
Lemma coord_err : forall n d N D, ap (12 / 1000) 17000000000000 n N -> ap (3 / 10 ^ 6) 4500000000 d D -> 1 <= Rabs D ->
  value d <> 0 /\ double (Fround8 (Fdiv n d)) /\ Rabs (value (Fround8 (Fdiv n d)) - N / D) <= ray_err D (N / D).
Proof.
  intros n d N D (Dn & En & Bn) (Dd & Ed & Bd) H1. destruct (quot_err _ _ _ _ _ _ En Ed ltac:(lra) H1) as [NZ QE]. split; [exact NZ|]. set (q := N / D) in *.
  assert (Bq : Rabs q <= 17000000000000) by (unfold q, Rdiv; rewrite Rabs_mult, Rabs_inv; apply Rle_trans with (Rabs N * 1); [apply Rmult_le_compat_l; [apply Rabs_pos|]; rewrite <- Rinv_1; apply Rinv_le_contravar; lra|lra]).
  pose proof (Rabs_pos q) as Pq. set (r := value n / value d) in *.
  assert (QE2 : Rabs (r - q) <= (121 / 10000 + Rabs q * (31 / 10 ^ 7)) / Rabs D).
  { eapply Rle_trans; [exact QE|]. apply Rmult_le_reg_r with ((Rabs D - 3 / 10 ^ 6) * Rabs D); [apply Rmult_lt_0_compat; lra|].
    replace ((12 / 1000 + Rabs q * (3 / 10 ^ 6)) / (Rabs D - 3 / 10 ^ 6) * ((Rabs D - 3 / 10 ^ 6) * Rabs D)) with ((12 / 1000 + Rabs q * (3 / 10 ^ 6)) * Rabs D) by (field; lra).
    replace ((121 / 10000 + Rabs q * (31 / 10 ^ 7)) / Rabs D * ((Rabs D - 3 / 10 ^ 6) * Rabs D)) with ((121 / 10000 + Rabs q * (31 / 10 ^ 7)) * (Rabs D - 3 / 10 ^ 6)) by (field; lra). nra. }
  assert (ID : 0 < / Rabs D <= 1) by (split; [apply Rinv_0_lt_compat; lra|rewrite <- Rinv_1; apply Rinv_le_contravar; lra]).
  assert (Br : Rabs r <= Rabs q + Rabs (r - q)) by (replace r with (q + (r - q)) at 1 by ring; apply Rabs_triang).
  unfold Rdiv in QE2. unfold ray_err, Rdiv at 1. set (i := / Rabs D) in *. assert (Qi : 0 <= Rabs q * i <= Rabs q) by nra.
  assert (Q3 : Rabs (r - q) <= 121 / 10000 * i + 31 / 10 ^ 7 * (Rabs q * i)) by lra.
  destruct (quot_double n d Dn Dd NZ) as [G1 G2]; [fold r; lra|]. fold r in G2. split; [exact G1|].
  set (w := value (Fround8 (Fdiv n d))) in *. replace (w - q) with ((w - r) + (r - q)) by ring. eapply Rle_trans; [apply Rabs_triang|].
  replace ((13 / 1000 + 4 / 10 ^ 6 * Rabs q) * i) with (13 / 1000 * i + 4 / 10 ^ 6 * (Rabs q * i)) by ring. clearbody w r q i. clear - G2 Q3 Br Qi ID Pq Bq. lra.
Qed.
(** * Sides parallel to an axis *)
Lemma nearest_value : forall x, double x -> nearest (value x) = value x.
Proof. intros x D. destruct (fin_B x D) as (b & -> & _ & <-). unfold nearest. apply round_generic; [apply valid_rnd_N|]. apply generic_format_B2R. Qed.
Lemma nearest_0 : nearest 0 = 0.
Proof. unfold nearest. apply round_0. apply valid_rnd_N. Qed.
Lemma mul_zero : forall u z, double u -> double z -> value z = 0 -> double (Fmul u z) /\ value (Fmul u z) = 0.
Proof. intros u z Du Dz Z. destruct (fmul u z Du Dz) as [H1 H2]; [rewrite Z, Rmult_0_r, Rabs_R0, b60; lra|]. split; [exact H1|]. rewrite H2, Z, Rmult_0_r. apply nearest_0. Qed.
Lemma sub_zero_l : forall z y, double z -> double y -> value z = 0 -> Rabs (value y) <= 1000000000000000000 -> double (Fsub z y) /\ value (Fsub z y) = - value y.
Proof.
  intros z y Dz Dy Z B. destruct (fsub z y Dz Dy) as [H1 H2]; [rewrite Z, Rminus_0_l, Rabs_Ropp, b60; lra|]. split; [exact H1|]. rewrite H2, Z, Rminus_0_l, nearest_opp_R, nearest_value by exact Dy. reflexivity.
Qed.
Lemma sub_zero_r : forall z y, double z -> double y -> value z = 0 -> Rabs (value y) <= 1000000000000000000 -> double (Fsub y z) /\ value (Fsub y z) = value y.
Proof.
  intros z y Dz Dy Z B. destruct (fsub y z Dy Dz) as [H1 H2]; [rewrite Z, Rminus_0_r, b60; lra|]. split; [exact H1|]. rewrite H2, Z, Rminus_0_r, nearest_value by exact Dy. reflexivity.
Qed.
Lemma axis_quot : forall n d M c, double n -> double d -> Rabs (value n - M * c) <= Rabs (M * c) / 2 ^ 53 + / 2 ^ 100 -> Rabs (value d - M) <= Rabs M / 2 ^ 53 + / 2 ^ 100 -> 1 <= Rabs M -> Rabs c <= 2000 ->
  value d <> 0 /\ double (Fround8 (Fdiv n d)) /\ Rabs (value (Fround8 (Fdiv n d)) - c) <= 6 / 10 ^ 9.
Proof.
  intros n d M c Dn Dd HN HD H1 HC. set (m := Rabs M) in *. rewrite Rabs_mult in HN. fold m in HN. pose proof (Rabs_pos c) as Pc.
  assert (d0 : m * (1 / 2) <= Rabs (value d)).
  { assert (m <= Rabs (value d) + Rabs (value d - M)); [|lra]. unfold m. replace M with (value d - (value d - M)) at 1 by ring. eapply Rle_trans; [apply Rabs_triang|]. rewrite Rabs_Ropp. lra. }
  assert (NZ : value d <> 0) by (intros E; rewrite E, Rabs_R0 in d0; lra). split; [exact NZ|].
  assert (Q : Rabs (value n / value d - c) <= / 10 ^ 11).
  { replace (value n / value d - c) with (((value n - M * c) - c * (value d - M)) * / value d) by (field; exact NZ). rewrite Rabs_mult, Rabs_inv.
    apply Rmult_le_reg_r with (Rabs (value d)); [lra|]. rewrite Rmult_assoc, Rinv_l, Rmult_1_r by lra. eapply Rle_trans; [apply Rabs_triang|]. rewrite Rabs_Ropp, Rabs_mult.
    assert (Rabs c * Rabs (value d - M) <= 2000 * (m / 2 ^ 53 + / 2 ^ 100)) by (apply Rmult_le_compat; auto using Rabs_pos). assert (m * Rabs c <= m * 2000) by (apply Rmult_le_compat_l; lra). lra. }
  assert (Bq : Rabs (value n / value d) <= 2001) by (replace (value n / value d) with (c + (value n / value d - c)) by ring; eapply Rle_trans; [apply Rabs_triang|]; lra).
  destruct (quot_double n d Dn Dd NZ) as [G1 G2]; [lra|]. split; [exact G1|]. set (w := value (Fround8 (Fdiv n d))) in *. set (r := value n / value d) in *.
  replace (w - c) with ((w - r) + (r - c)) by ring. eapply Rle_trans; [apply Rabs_triang|]. lra.
Qed.
Section Axis.
Variables u v m k e z z' : F.
Variables mv ev c : R.
Hypothesis Du : double u.
Hypothesis Dv : double v.
Hypothesis Dz : double z.
Hypothesis Dz' : double z'.
Hypothesis Z : value z = 0.
Hypothesis Z' : value z' = 0.
Hypothesis Em : exactly m mv.
Hypothesis Bm : 1 <= Rabs mv <= 2000000.
Hypothesis Ee : exactly e ev.
Hypothesis Be : 1 <= Rabs ev <= 4000.
Hypothesis Bc : Rabs c <= 2000.
Lemma prod_bounds : 1 <= Rabs (mv * ev) <= 8000000000 /\ Rabs (mv * ev * c) <= 16000000000000.
Proof.
  assert (P : 1 <= Rabs mv * Rabs ev <= 2000000 * 4000) by (destruct Bm, Be; split; [rewrite <- (Rmult_1_l 1); apply Rmult_le_compat; lra|apply Rmult_le_compat; lra]). rewrite !Rabs_mult. split; [lra|].
  apply Rle_trans with (8000000000 * 2000); [apply Rmult_le_compat; auto using Rabs_pos; [apply Rmult_le_pos; apply Rabs_pos|lra]|lra].
Qed.
Lemma mul_me : double (Fmul m e) /\ Rabs (value (Fmul m e) - mv * ev) <= Rabs (mv * ev) / 2 ^ 53 + / 2 ^ 100 /\ Rabs (value (Fmul m e)) <= 10000000000.
Proof.
  destruct prod_bounds as [P _]. destruct Em as [Dm Vm]. destruct Ee as [De Ve]. destruct (fmul m e Dm De) as [H1 H2]; [rewrite Vm, Ve, b60; lra|]. rewrite Vm, Ve in H2. pose proof (rnd_rel (mv * ev)) as R1. rewrite <- H2 in R1. split; [exact H1|]. split; [exact R1|].
  eapply Rle_trans; [eapply abs_err; [exact R1|apply Rle_refl]|]. lra.
Qed.
Lemma mul_mk : forall kv, exactly k kv -> Rabs (mv * kv) <= 16000000000000 -> double (Fmul m k) /\ Rabs (value (Fmul m k) - mv * kv) <= Rabs (mv * kv) / 2 ^ 53 + / 2 ^ 100 /\ Rabs (value (Fmul m k)) <= 20000000000000.
Proof.
  intros kv [Dk Vk] P. destruct Em as [Dm Vm]. destruct (fmul m k Dm Dk) as [H1 H2]; [rewrite Vm, Vk, b60; lra|]. rewrite Vm, Vk in H2. pose proof (rnd_rel (mv * kv)) as R1. rewrite <- H2 in R1. split; [exact H1|]. split; [exact R1|].
  eapply Rle_trans; [eapply abs_err; [exact R1|apply Rle_refl]|]. lra.
Qed.
Lemma axis_vertical : exactly k (- (c * ev)) ->
  let w := Fround8 (Fdiv (Fsub (Fmul u z) (Fmul m k)) (Fsub (Fmul m e) (Fmul v z'))) in double w /\ Rabs (value w - c) <= 6 / 10 ^ 9.
Proof.
  intros Ek w. destruct prod_bounds as [P1 P2]. destruct (mul_mk _ Ek) as (K1 & K2 & K3); [replace (mv * - (c * ev)) with (- (mv * ev * c)) by ring; rewrite Rabs_Ropp; exact P2|]. destruct mul_me as (M1 & M2 & M3).
  destruct (mul_zero u z Du Dz Z) as [U1 U2]. destruct (mul_zero v z' Dv Dz' Z') as [V1 V2]. destruct (sub_zero_l _ _ U1 K1 U2 ltac:(lra)) as [N1 N2]. destruct (sub_zero_r _ _ V1 M1 V2 ltac:(lra)) as [D1 D2].
  destruct (axis_quot (Fsub (Fmul u z) (Fmul m k)) (Fsub (Fmul m e) (Fmul v z')) (mv * ev) c N1 D1) as (A1 & A2 & A3); [| |lra|exact Bc|split; [exact A2|exact A3]].
  - rewrite N2. replace (- value (Fmul m k) - mv * ev * c) with (- (value (Fmul m k) - mv * - (c * ev))) by ring. rewrite Rabs_Ropp. replace (mv * ev * c) with (- (mv * - (c * ev))) by ring. rewrite Rabs_Ropp. exact K2.
  - rewrite D2. exact M2.
Qed.
Lemma axis_horizontal : exactly k (c * ev) ->
  let w := Fround8 (Fdiv (Fsub (Fmul u z) (Fmul m k)) (Fsub (Fmul v z') (Fmul m e))) in double w /\ Rabs (value w - c) <= 6 / 10 ^ 9.
Proof.
  intros Ek w. destruct prod_bounds as [P1 P2]. destruct (mul_mk _ Ek) as (K1 & K2 & K3); [replace (mv * (c * ev)) with (mv * ev * c) by ring; exact P2|]. destruct mul_me as (M1 & M2 & M3).
  destruct (mul_zero u z Du Dz Z) as [U1 U2]. destruct (mul_zero v z' Dv Dz' Z') as [V1 V2]. destruct (sub_zero_l _ _ U1 K1 U2 ltac:(lra)) as [N1 N2]. destruct (sub_zero_l _ _ V1 M1 V2 ltac:(lra)) as [D1 D2].
  destruct (axis_quot (Fsub (Fmul u z) (Fmul m k)) (Fsub (Fmul v z') (Fmul m e)) (- (mv * ev)) c N1 D1) as (A1 & A2 & A3); [| |rewrite Rabs_Ropp; lra|exact Bc|split; [exact A2|exact A3]].
  - rewrite N2. replace (- value (Fmul m k) - - (mv * ev) * c) with (- (value (Fmul m k) - mv * (c * ev))) by ring. rewrite Rabs_Ropp. replace (- (mv * ev) * c) with (- (mv * (c * ev))) by ring. rewrite Rabs_Ropp. exact K2.
  - rewrite D2. replace (- value (Fmul m e) - - (mv * ev)) with (- (value (Fmul m e) - mv * ev)) by ring. rewrite !Rabs_Ropp. exact M2.
Qed.
End Axis.
(** * Comparing with the box of a segment *)
Lemma cmp_low : forall L x u w, exactly x u -> Rabs u <= 1000000 -> double w ->
  (u - 8 / 10 ^ 9 <= value w -> SFltb (Fsub x (EPS (A := FA L))) w = true /\ SFleb (Fsub x (EPS (A := FA L))) w = true) /\
  (value w <= u - 12 / 10 ^ 9 -> SFltb (Fsub x (EPS (A := FA L))) w = false /\ SFleb (Fsub x (EPS (A := FA L))) w = false).
Proof.
  intros L x u w [Dx Vx] B Dw. destruct (eps_double L) as [ED EV]. set (e := EPS (A := FA L)) in *. clearbody e. apply Rabs_le_inv in B.
  assert (B1 : Rabs (value x - value e) <= 4194304) by (rewrite Vx; apply Rabs_le; lra). destruct (fsub x e Dx ED (big _ B1)) as [S1 S2]. pose proof (rnd_err _ B1) as Q1. rewrite <- S2, Vx in Q1. unfold eps in Q1. apply Rabs_le_inv in Q1.
  rewrite fltb, fleb by auto. split; intros H; (split; [apply Rlt_bool_true || apply Rlt_bool_false|apply Rle_bool_true || apply Rle_bool_false]); lra.
Qed.
Lemma cmp_high : forall L x u w, exactly x u -> Rabs u <= 1000000 -> double w ->
  (value w <= u + 8 / 10 ^ 9 -> SFleb w (Fadd x (EPS (A := FA L))) = true) /\ (u + 12 / 10 ^ 9 <= value w -> SFleb w (Fadd x (EPS (A := FA L))) = false).
Proof.
  intros L x u w [Dx Vx] B Dw. destruct (eps_double L) as [ED EV]. set (e := EPS (A := FA L)) in *. clearbody e. apply Rabs_le_inv in B.
  assert (B1 : Rabs (value x + value e) <= 4194304) by (rewrite Vx; apply Rabs_le; lra). destruct (fadd x e Dx ED (big _ B1)) as [S1 S2]. pose proof (rnd_err _ B1) as Q1. rewrite <- S2, Vx in Q1. unfold eps in Q1. apply Rabs_le_inv in Q1.
  rewrite fleb by auto. split; intros H; (apply Rle_bool_true || apply Rle_bool_false); lra.
Qed.
Lemma minmax_exact : forall L x y u v, exactly x u -> exactly y v -> exactly (nmin (A := FA L) x y) (Rmin u v) /\ exactly (nmax (A := FA L) x y) (Rmax u v).
Proof.
  intros L x y u v E F. unfold nmin, nmax. pose proof (exactly_ltb y x _ _ F E) as H1. pose proof (exactly_ltb x y _ _ E F) as H2.
  change (@nltb (FA L) y x) with (SFltb y x). change (@nltb (FA L) x y) with (SFltb x y). rewrite H1, H2. unfold Rltb, Rmin, Rmax. destruct (Rlt_dec v u), (Rlt_dec u v), (Rle_dec u v); try lra; split; auto; assert (u = v) by lra; subst; auto.
Qed.
Lemma box_true : forall L (s : seg (FA L)) (a b : pt RA) wx wy, exact_pt (si s) a -> exact_pt (sj s) b ->
  Rabs (px a) <= 1000000 -> Rabs (py a) <= 1000000 -> Rabs (px b) <= 1000000 -> Rabs (py b) <= 1000000 -> double wx -> double wy ->
  Rmin (px a) (px b) - 8 / 10 ^ 9 <= value wx <= Rmax (px a) (px b) + 8 / 10 ^ 9 -> Rmin (py a) (py b) - 8 / 10 ^ 9 <= value wy <= Rmax (py a) (py b) + 8 / 10 ^ 9 ->
  ls_is_internal_point s (@mkpt (FA L) wx wy) = true.
Proof.
  intros L s a b wx wy [E1 E2] [F1 F2] A1 A2 A3 A4 Dx Dy [X1 X2] [Y1 Y2]. unfold ls_is_internal_point. cbv zeta. cbn [px py].
  destruct (minmax_exact L _ _ _ _ E1 F1) as [M1 M2]. destruct (minmax_exact L _ _ _ _ E2 F2) as [N1 N2].
  assert (M : forall u v, Rabs u <= 1000000 -> Rabs v <= 1000000 -> Rabs (Rmin u v) <= 1000000 /\ Rabs (Rmax u v) <= 1000000) by (intros u v U V; unfold Rmin, Rmax; destruct (Rle_dec u v); auto).
  destruct (M _ _ A1 A3) as [K1 K2]. destruct (M _ _ A2 A4) as [K3 K4].
  pose proof (proj1 (proj1 (cmp_low L _ _ wx M1 K1 Dx) X1)) as H1. pose proof (proj1 (cmp_high L _ _ wx M2 K2 Dx) X2) as H2. pose proof (proj2 (proj1 (cmp_low L _ _ wy N1 K3 Dy) Y1)) as H3. pose proof (proj1 (cmp_high L _ _ wy N2 K4 Dy) Y2) as H4.
  apply andb_true_iff. split; apply andb_true_iff; split; assumption.
Qed.
Lemma box_false : forall L (s : seg (FA L)) (a b : pt RA) wx wy, exact_pt (si s) a -> exact_pt (sj s) b ->
  Rabs (px a) <= 1000000 -> Rabs (py a) <= 1000000 -> Rabs (px b) <= 1000000 -> Rabs (py b) <= 1000000 -> double wx -> double wy ->
  value wx <= Rmin (px a) (px b) - 12 / 10 ^ 9 \/ Rmax (px a) (px b) + 12 / 10 ^ 9 <= value wx \/ value wy <= Rmin (py a) (py b) - 12 / 10 ^ 9 \/ Rmax (py a) (py b) + 12 / 10 ^ 9 <= value wy ->
  ls_is_internal_point s (@mkpt (FA L) wx wy) = false.
Proof.
  intros L s a b wx wy [E1 E2] [F1 F2] A1 A2 A3 A4 Dx Dy H. unfold ls_is_internal_point. cbv zeta. cbn [px py].
  destruct (minmax_exact L _ _ _ _ E1 F1) as [M1 M2]. destruct (minmax_exact L _ _ _ _ E2 F2) as [N1 N2].
  assert (M : forall u v, Rabs u <= 1000000 -> Rabs v <= 1000000 -> Rabs (Rmin u v) <= 1000000 /\ Rabs (Rmax u v) <= 1000000) by (intros u v U V; unfold Rmin, Rmax; destruct (Rle_dec u v); auto).
  destruct (M _ _ A1 A3) as [K1 K2]. destruct (M _ _ A2 A4) as [K3 K4].
  apply andb_false_iff. destruct H as [H|[H|[H|H]]]; [left|left|right|right]; apply andb_false_iff; [left|right|left|right].
  - exact (proj1 (proj2 (cmp_low L _ _ wx M1 K1 Dx) H)).
  - exact (proj2 (cmp_high L _ _ wx M2 K2 Dx) H).
  - exact (proj2 (proj2 (cmp_low L _ _ wy N1 K3 Dy) H)).
  - exact (proj2 (cmp_high L _ _ wy N2 K4 Dy) H).
Qed.

(** * Points that are at least 1 apart *)
Lemma nearest_le : forall x y, x <= y -> nearest x <= nearest y.
Proof. intros x y H. unfold nearest. apply round_le; [apply Vfx|apply valid_rnd_N|exact H]. Qed.
Lemma nearest_half : nearest (1 / 2) = 1 / 2.
Proof. unfold nearest. apply round_generic; [apply valid_rnd_N|]. replace (1 / 2) with (bpow radix2 (-1)) by (simpl; lra). apply generic_format_bpow. cbv. discriminate. Qed.
Definition off (p q : pt RA) : Prop := 1 <= Rabs (px p - px q) \/ 1 <= Rabs (py p - py q).
Lemma off_distance : forall L (p q : pt (FA L)) (p' q' : pt RA), exact_pt p p' -> exact_pt q q' -> Rabs (px p') <= 1000000 -> Rabs (py p') <= 1000000 -> Rabs (px q') <= 1000000 -> Rabs (py q') <= 1000000 -> off p' q' ->
  SFltb (pt_distance p q) (EPS (A := FA L)) = false /\ pt_sameb q p = false.
Proof.
  intros L [x1 y1] [x2 y2] [u1 v1] [u2 v2] [E1 E2] [E3 E4] B1 B2 B3 B4 O. cbn [px py] in *. unfold off in O. cbn [px py] in O. split.
  - change (pt_distance (@mkpt (FA L) x1 y1) (@mkpt (FA L) x2 y2)) with (Fsqrt (Fadd (Fmul (Fsub x1 x2) (Fsub x1 x2)) (Fmul (Fsub y1 y2) (Fsub y1 y2)))).
    assert (SQ : forall a b u v, exactly a u -> exactly b v -> Rabs u <= 1000000 -> Rabs v <= 1000000 -> double (Fmul (Fsub a b) (Fsub a b)) /\ 0 <= value (Fmul (Fsub a b) (Fsub a b)) <= 5000000000000 /\ (1 <= Rabs (u - v) -> 1 / 2 <= value (Fmul (Fsub a b) (Fsub a b)))).
    { intros a b u v Ea Eb Bu Bv. destruct (ap_sub _ _ _ _ _ _ _ _ (ap_exact _ _ _ Ea Bu) (ap_exact _ _ _ Eb Bv) ltac:(lra)) as (S1 & S2 & S3). set (d := Fsub a b) in *. clearbody d.
      assert (Bd : Rabs (value d) <= 2000001) by (eapply Rle_trans; [eapply abs_err; [exact S2|exact S3]|lra]).
      assert (P : 0 <= value d * value d <= 2000001 * 2000001) by (split; [apply Rle_0_sqr|]; replace (value d * value d) with (Rabs (value d) * Rabs (value d)) by (rewrite <- Rabs_mult; apply Rabs_pos_eq, Rle_0_sqr); apply Rmult_le_compat; auto using Rabs_pos).
      destruct (fmul d d S1 S1) as [M1 M2]; [rewrite Rabs_pos_eq, b60 by lra; lra|]. split; [exact M1|]. rewrite M2. pose proof (rnd_rel (value d * value d)) as R1. rewrite (Rabs_pos_eq (value d * value d)) in R1 by lra. split.
      - split; [rewrite <- nearest_0; apply nearest_le; lra|]. apply Rabs_le_inv in R1. lra.
      - intros H1. rewrite <- nearest_half. apply nearest_le. assert (9 / 10 <= Rabs (value d)).
        { assert (Rabs (u - v) <= Rabs (value d) + Rabs (value d - (u - v))); [|lra]. replace (u - v) with (value d - (value d - (u - v))) at 1 by ring. eapply Rle_trans; [apply Rabs_triang|]. rewrite Rabs_Ropp. lra. }
        replace (value d * value d) with (Rabs (value d) * Rabs (value d)) by (rewrite <- Rabs_mult; apply Rabs_pos_eq, Rle_0_sqr). apply Rle_trans with (9 / 10 * (9 / 10)); [lra|]. apply Rmult_le_compat; lra. }
    destruct (SQ _ _ _ _ E1 E3 B1 B3) as (S1 & S2 & S3). destruct (SQ _ _ _ _ E2 E4 B2 B4) as (T1 & T2 & T3). set (f := Fmul (Fsub x1 x2) (Fsub x1 x2)) in *. set (g := Fmul (Fsub y1 y2) (Fsub y1 y2)) in *. clearbody f g.
    destruct (fadd f g S1 T1) as [A1 A2]; [rewrite Rabs_pos_eq, b60 by lra; lra|].
    assert (H : 1 / 2 <= value (Fadd f g)) by (rewrite A2, <- nearest_half; apply nearest_le; destruct O as [O|O]; [specialize (S3 O)|specialize (T3 O)]; lra).
    destruct (fsqrt (Fadd f g) A1 ltac:(lra)) as [Q1 Q2]. destruct (eps_double L) as [ED EV]. rewrite fltb by auto. apply Rlt_bool_false. rewrite Q2. apply Rle_trans with (1 / 2); [lra|]. rewrite <- nearest_half. apply nearest_le.
    apply Rle_trans with (sqrt (1 / 2 * (1 / 2))); [rewrite sqrt_square by lra; lra|]. apply sqrt_le_1_alt. lra.
  - unfold pt_sameb. cbn [px py]. change (@neqb (FA L)) with SFeqb. destruct E1 as [D1 V1]. destruct E2 as [D2 V2]. destruct E3 as [D3 V3]. destruct E4 as [D4 V4]. rewrite !feqb by auto. rewrite V1, V2, V3, V4. apply andb_false_iff.
    destruct O as [O|O]; [left|right]; apply Req_bool_false; intros E; rewrite E, Rminus_diag_eq, Rabs_R0 in O by reflexivity; lra.
Qed.
Lemma touch_off : forall L (s t : seg (FA L)), (forall x y, In x (ij s) -> In y (ij t) -> SFltb (pt_distance x y) (EPS (A := FA L)) = false /\ pt_sameb y x = false) -> touch s t = false.
Proof.
  intros L s t H. unfold touch. apply orb_false_iff. split.
  - assert (E : set_inter pt_sameb (ij s) (ij t) = []); [|rewrite E; reflexivity]. unfold set_inter.
    assert (G : forall l, (forall x, In x l -> In x (ij s)) -> filter (fun x => memb pt_sameb x (ij t)) l = []); [|apply G; intros x I; apply dedup_acc_incl in I; destruct I as [I|[]]; exact I].
    induction l as [|x l IH]; intros I; [reflexivity|]. cbn [filter]. assert (M : memb pt_sameb x (ij t) = false).
    { pose proof (fun y J => proj2 (H x y (I x (or_introl eq_refl)) J)) as K. clear - K. induction (ij t) as [|y l IH]; [reflexivity|]. cbn [memb]. rewrite (K y (or_introl eq_refl)). apply IH. intros z J. apply K. right. exact J. }
    rewrite M. apply IH. intros y J. apply I. right. exact J.
  - apply not_true_iff_false. intros E. apply existsb_exists in E. destruct E as (x & I & E). apply existsb_exists in E. destruct E as (y & J & E). pose proof (proj1 (H x y I J)) as K. change (SFltb (pt_distance x y) (EPS (A := FA L)) = true) in E. congruence.
Qed.
(** * One coordinate of the intersection point *)
Lemma err_small : forall D q i, 1 <= Rabs D -> i = / Rabs D -> Rabs q <= 2000 -> ray_err D q <= 21 / 1000 * i + 53 / 10 ^ 10.
Proof.
  intros D q i H1 Hi Hq. unfold ray_err, Rdiv at 1. rewrite <- Hi. assert (Pi : 0 < i) by (rewrite Hi; apply Rinv_0_lt_compat; lra). assert (Rabs q * i <= 2000 * i) by (apply Rmult_le_compat_r; lra).
  replace ((13 / 1000 + 4 / 10 ^ 6 * Rabs q) * i) with (13 / 1000 * i + 4 / 10 ^ 6 * (Rabs q * i)) by ring. lra.
Qed.
Lemma side_in : forall a b s D q w i, Rabs a <= 2000 -> Rabs b <= 2000 -> 1 <= Rabs D -> i = / Rabs D -> q = a + s * (b - a) -> 1000 * i <= s -> 1000 * i <= 1 - s -> 1 <= Rabs (b - a) ->
  Rabs (w - q) <= ray_err D q -> Rmin a b - 8 / 10 ^ 9 <= w <= Rmax a b + 8 / 10 ^ 9.
Proof.
  intros a b s D q w i Ba Bb H1 Hi Hq S1 S2 H W. assert (Pi : 0 < i) by (rewrite Hi; apply Rinv_0_lt_compat; lra). apply Rabs_le_inv in Ba, Bb.
  assert (Q : Rmin a b + 1000 * i <= q <= Rmax a b - 1000 * i).
  { unfold Rmin, Rmax, Rabs in *. destruct (Rle_dec a b); destruct (Rcase_abs (b - a)); subst q; nra. }
  assert (Bq : Rabs q <= 2000) by (apply Rabs_le; unfold Rmin, Rmax in Q; destruct (Rle_dec a b); lra).
  pose proof (err_small D q i H1 Hi Bq) as E. apply Rabs_le_inv in W. lra.
Qed.
Lemma side_out : forall a b s D q w i, Rabs a <= 2000 -> Rabs b <= 2000 -> 1 <= Rabs D <= 4500000000 -> i = / Rabs D -> q = a + s * (b - a) -> s <= - (1000 * i) \/ 1 - s <= - (1000 * i) -> 1 <= Rabs (b - a) ->
  Rabs (w - q) <= ray_err D q -> w <= Rmin a b - 12 / 10 ^ 9 \/ Rmax a b + 12 / 10 ^ 9 <= w.
Proof.
  intros a b s D q w i Ba Bb [H1 H1'] Hi Hq S H W. assert (Pi : / 4500000000 <= i <= 1) by (rewrite Hi; split; [apply Rinv_le_contravar; lra|rewrite <- Rinv_1; apply Rinv_le_contravar; lra]). apply Rabs_le_inv in Ba, Bb.
  assert (Q : exists y, 1000 * i <= y /\ (q = Rmin a b - y \/ q = Rmax a b + y)).
  { destruct (Rle_lt_dec a b) as [C|C].
    - assert (M : Rmin a b = a /\ Rmax a b = b) by (unfold Rmin, Rmax; destruct (Rle_dec a b); split; lra). destruct M as [-> ->]. rewrite Rabs_pos_eq in H by lra. destruct S as [S|S]; [exists (- s * (b - a))|exists ((s - 1) * (b - a))]; (split; [nra|subst q]); [left|right]; ring.
    - assert (M : Rmin a b = b /\ Rmax a b = a) by (unfold Rmin, Rmax; destruct (Rle_dec a b); split; lra). destruct M as [-> ->]. rewrite Rabs_left in H by lra. destruct S as [S|S]; [exists (- s * (a - b))|exists ((s - 1) * (a - b))]; (split; [nra|subst q]); [right|left]; ring. }
  destruct Q as (y & Y & Q). assert (Bq : Rabs q <= 2000 + y) by (apply Rabs_le; unfold Rmin, Rmax in Q; destruct (Rle_dec a b), Q; lra).
  assert (E : ray_err D q <= 21 / 1000 * i + 4 / 10 ^ 6 * y + (53 / 10 ^ 10 + y / 10 ^ 15)).
  { unfold ray_err, Rdiv at 1. rewrite <- Hi. assert (Rabs q * i <= 2000 * i + y) by (apply Rle_trans with ((2000 + y) * i); [apply Rmult_le_compat_r; lra|nra]).
    replace ((13 / 1000 + 4 / 10 ^ 6 * Rabs q) * i) with (13 / 1000 * i + 4 / 10 ^ 6 * (Rabs q * i)) by ring. lra. }
  apply Rabs_le_inv in W. destruct Q as [Q|Q]; [left|right]; lra.
Qed.
Lemma axis_in : forall c w, Rabs (w - c) <= 6 / 10 ^ 9 -> Rmin c c - 8 / 10 ^ 9 <= w <= Rmax c c + 8 / 10 ^ 9.
Proof. intros c w H. apply Rabs_le_inv in H. unfold Rmin, Rmax. destruct (Rle_dec c c); lra. Qed.
Lemma ray_in : forall p P t D q w i, 2000 <= Rabs D -> i = / Rabs D -> q = p + t * (P - p) -> i <= t -> 1 / 1002000 <= 1 - t -> 100 <= Rabs (P - p) -> Rabs q <= 2000 ->
  Rabs (w - q) <= 21 / 1000 * i + 53 / 10 ^ 10 \/ Rabs (w - q) <= 6 / 10 ^ 9 -> Rmin p P - 8 / 10 ^ 9 <= w <= Rmax p P + 8 / 10 ^ 9.
Proof.
  intros p P t D q w i H1 Hi Hq T1 T2 H Bq W. assert (Pi : 0 < i <= / 2000) by (rewrite Hi; split; [apply Rinv_0_lt_compat; lra|apply Rinv_le_contravar; lra]).
  assert (W' : Rabs (w - q) <= 21 / 1000 * i + 6 / 10 ^ 9) by (destruct W as [W|W]; lra). apply Rabs_le_inv in W'.
  assert (Q : (Rmin p P + 100 * i <= q \/ Rmin p P + 9 / 100000 <= q) /\ (q <= Rmax p P - 9 / 100000 \/ q <= Rmax p P - 100 * i)).
  { clear W W' H1 Hi Bq. destruct (Rle_lt_dec p P) as [C|C].
    - assert (M : Rmin p P = p /\ Rmax p P = P) by (unfold Rmin, Rmax; destruct (Rle_dec p P); split; lra). destruct M as [-> ->]. rewrite Rabs_pos_eq in H by lra.
      pose proof (Rmult_le_compat i t 100 (P - p)) as M1. pose proof (Rmult_le_compat (1 / 1002000) (1 - t) 100 (P - p)) as M2. lra.
    - assert (M : Rmin p P = P /\ Rmax p P = p) by (unfold Rmin, Rmax; destruct (Rle_dec p P); split; lra). destruct M as [-> ->]. rewrite Rabs_left in H by lra.
      pose proof (Rmult_le_compat i t 100 (p - P)) as M1. pose proof (Rmult_le_compat (1 / 1002000) (1 - t) 100 (p - P)) as M2. lra. }
  lra.
Qed.
Lemma ray_out : forall p P t D q w i, 1 <= Rabs D <= 4500000000 -> i = / Rabs D -> q = p + t * (P - p) -> t <= - i -> 100 <= P - p -> Rabs q <= 2000 ->
  Rabs (w - q) <= 21 / 1000 * i + 53 / 10 ^ 10 \/ Rabs (w - q) <= 6 / 10 ^ 9 -> w <= Rmin p P - 12 / 10 ^ 9.
Proof.
  intros p P t D q w i [H1 H1'] Hi Hq T H Bq W. assert (Pi : / 4500000000 <= i <= 1) by (rewrite Hi; split; [apply Rinv_le_contravar; lra|rewrite <- Rinv_1; apply Rinv_le_contravar; lra]).
  assert (Q : q <= p - 100 * i) by (subst q; nra). assert (M : Rmin p P = p) by (unfold Rmin; destruct (Rle_dec p P); lra). rewrite M.
  destruct W as [W|W]; apply Rabs_le_inv in W; lra.
Qed.
(** * A ray and a side *)
Lemma whole_abs : forall q, lattice 2000 q -> Rabs (px q) <= 2000 /\ Rabs (py q) <= 2000.
Proof. intros q (a & b & X & Y & A & B). rewrite X, Y, <- !abs_IZR. split; apply IZR_le; assumption. Qed.
Lemma whole_gap : forall a b : Z, IZR a <> IZR b -> 1 <= Rabs (IZR a - IZR b).
Proof. intros a b N. rewrite <- minus_IZR, <- abs_IZR. apply IZR_le. assert (a <> b) by (intros ->; apply N; reflexivity). lia. Qed.
Lemma whole_off : forall p q, lattice 2000 p -> lattice 2000 q -> p <> q -> off p q.
Proof.
  intros [x y] [x' y'] (a & b & X & Y & _) (a' & b' & X' & Y' & _) N. cbn [px py] in *. subst. unfold off. cbn [px py]. destruct (Req_dec (IZR a) (IZR a')) as [E|E]; [|left; apply whole_gap; exact E].
  right. apply whole_gap. intros E2. apply N. rewrite E, E2. reflexivity.
Qed.
(** The conditions on the ray from p to P and the side from a to b. *)
Definition sees (p P a b : pt RA) : Prop :=
  Rabs (px P) <= 1000000 /\ Rabs (py P) <= 100000 /\ 100 <= px P - px p /\ 100 <= Rabs (py P - py p) /\ px a + 1 <= px P /\ px b + 1 <= px P /\
  1000 <= Rabs (orient p P a) /\ 1000 <= Rabs (orient p P b) /\ 1 <= Rabs (orient p P b - orient p P a) /\ ~ on_segment a b p.
Section Side.
Variables p P a b : pt RA.
Hypothesis Lp : lattice 2000 p.
Hypothesis La : lattice 2000 a.
Hypothesis Lb : lattice 2000 b.
Hypothesis SEES : sees p P a b.
Let D := orient p P b - orient p P a.
Let s := - orient p P a / D.
Let t := orient a b p / D.
Let i := / Rabs D.
Lemma D_eq : D = (px P - px p) * (py b - py a) - (py P - py p) * (px b - px a).
Proof. unfold D, orient. ring. Qed.
Lemma D_nz : D <> 0.
Proof. destruct SEES as (_ & _ & _ & _ & _ & _ & _ & _ & H & _). fold D in H. intros E. rewrite E, Rabs_R0 in H. lra. Qed.
Lemma D_bound : 1 <= Rabs D <= 4500000000.
Proof.
  destruct SEES as (B1 & B2 & H1 & _ & _ & _ & _ & _ & H & _). split; [exact H|]. rewrite D_eq. destruct (whole_abs _ Lp) as [P1 P2]. destruct (whole_abs _ La) as [A1 A2]. destruct (whole_abs _ Lb) as [B3 B4].
  assert (T : forall x y M N, Rabs x <= M -> Rabs y <= N -> Rabs (x - y) <= M + N) by (intros x y M N H2 H3; eapply Rle_trans; [apply Rabs_triang|]; rewrite Rabs_Ropp; lra).
  pose proof (T _ _ _ _ B1 P1). pose proof (T _ _ _ _ B2 P2). pose proof (T _ _ _ _ B3 A1). pose proof (T _ _ _ _ B4 A2).
  eapply Rle_trans; [apply (T _ _ (1002000 * 4000) (102000 * 4000)); rewrite Rabs_mult; apply Rmult_le_compat; auto using Rabs_pos; lra|lra].
Qed.
Lemma q_ab : along p P t = along a b s.
Proof.
  pose proof D_nz as N. assert (K : forall x y, x * D = y * D -> x = y) by (intros x y H; apply Rmult_eq_reg_r with D; auto). assert (E : forall c, c / D * D = c) by (intros c; unfold Rdiv; rewrite Rmult_assoc, Rinv_l, Rmult_1_r by exact N; reflexivity).
  unfold along. f_equal; ra_simpl; apply K; rewrite !Rmult_plus_distr_r.
  - replace (t * (px P - px p) * D) with (t * D * (px P - px p)) by ring. replace (s * (px b - px a) * D) with (s * D * (px b - px a)) by ring. unfold t, s. rewrite !E, D_eq. unfold orient. ring.
  - replace (t * (py P - py p) * D) with (t * D * (py P - py p)) by ring. replace (s * (py b - py a) * D) with (s * D * (py b - py a)) by ring. unfold t, s. rewrite !E, D_eq. unfold orient. ring.
Qed.
Lemma s_gap : (1000 * i <= s \/ s <= - (1000 * i)) /\ (1000 * i <= 1 - s \/ 1 - s <= - (1000 * i)).
Proof.
  destruct SEES as (_ & _ & _ & _ & _ & _ & K1 & K2 & H & _). fold D in H. pose proof D_nz as N. assert (Pi : 0 < i) by (apply Rinv_0_lt_compat; lra).
  assert (G : forall c, 1000 <= Rabs c -> 1000 * i <= c / D \/ c / D <= - (1000 * i)).
  { intros c C. assert (A : 1000 * i <= Rabs (c / D)) by (unfold Rdiv; rewrite Rabs_mult, Rabs_inv; apply Rmult_le_compat_r; [left; exact Pi|exact C]). unfold Rabs in A. destruct (Rcase_abs (c / D)); [right|left]; lra. }
  split; [unfold s; apply G; rewrite Rabs_Ropp; exact K1|]. replace (1 - s) with (orient p P b / D); [apply G; exact K2|]. assert (Eb : orient p P b = D + orient p P a) by (unfold D; ring). rewrite Eb. unfold s. clearbody D. field. exact N.
Qed.
Lemma t_gap : t = 0 \/ i <= t \/ t <= - i.
Proof.
  pose proof D_nz as N. destruct D_bound as [H _]. assert (Pi : 0 < i) by (apply Rinv_0_lt_compat; lra). destruct (Req_dec (orient a b p) 0) as [E|E]; [left; unfold t; rewrite E; unfold Rdiv; ring|right].
  assert (W : 1 <= Rabs (orient a b p)).
  { destruct Lp as (x & y & X1 & Y1 & _). destruct La as (x2 & y2 & X2 & Y2 & _). destruct Lb as (x3 & y3 & X3 & Y3 & _). unfold orient in *. rewrite X1, Y1, X2, Y2, X3, Y3 in *. rewrite <- !minus_IZR, <- !mult_IZR, <- minus_IZR in *. rewrite <- abs_IZR. apply IZR_le. 
    match goal with |- (1 <= Z.abs ?z)%Z => assert (z <> 0%Z) by (intros K; rewrite K in E; apply E; reflexivity); lia end. }
  assert (A : i <= Rabs t) by (unfold t, Rdiv; rewrite Rabs_mult, Rabs_inv; fold i; nra). unfold Rabs in A. destruct (Rcase_abs t); [right|left]; lra.
Qed.
Lemma t_zero : t = 0 -> 0 <= s <= 1 -> False.
Proof.
  intros T S. destruct SEES as (_ & _ & _ & _ & _ & _ & _ & _ & _ & NO). apply NO. exists s. split; [exact S|]. rewrite <- q_ab, T. unfold along. destruct p; cbn; f_equal; ra_simpl; ring.
Qed.
Lemma crossb_param : crossb p P a b = true <-> 0 < s < 1 /\ 0 < t < 1.
Proof.
  pose proof D_nz as N. assert (D2 : 0 < D * D) by (apply Rsqr_pos_lt; exact N). unfold crossb. rewrite andb_true_iff. 
  assert (E1 : orient p P a * orient p P b = - (s * (1 - s)) * (D * D)) by (unfold s; replace (orient p P b) with (D + orient p P a) by (unfold D; ring); field; exact N).
  assert (E2 : orient a b p * orient a b P = - (t * (1 - t)) * (D * D)) by (replace (orient a b P) with (orient a b p - D) by (unfold D, orient; ring); unfold t; field; exact N).
  rewrite E1, E2. assert (G : forall x, Rltb (- (x * (1 - x)) * (D * D)) 0 = true <-> 0 < x < 1).
  { intros x. rewrite Rltb_true. split; intros H.
    - assert (K : 0 < x * (1 - x)) by (apply Rmult_lt_reg_r with (D * D); lra). split; nra.
    - assert (K : 0 < x * (1 - x)) by (apply Rmult_lt_0_compat; lra). assert (0 < x * (1 - x) * (D * D)) by (apply Rmult_lt_0_compat; lra). lra. }
  rewrite !G. reflexivity.
Qed.
Lemma t_below : 0 < s < 1 -> 1 / 1002000 <= 1 - t.
Proof.
  intros S. destruct SEES as (B1 & _ & H1 & _ & X1 & X2 & _). pose proof q_ab as Q. apply (f_equal px) in Q. cbn [along px] in Q. ra_simpl. destruct (whole_abs _ Lp) as [P1 _]. apply Rabs_le_inv in P1, B1.
  assert (K : px a + s * (px b - px a) <= px P - 1) by nra. assert (K2 : 1 <= (1 - t) * (px P - px p)) by lra. apply Rmult_le_reg_r with (px P - px p); [lra|]. lra.
Qed.
Lemma no_shared : crossb p P a b = true \/ forall q, on_segment p P q -> on_segment a b q -> False.
Proof.
  destruct (crossb p P a b) eqn:C; [left; reflexivity|right]. intros q (t' & T & Q1) (s' & S & Q2). pose proof D_nz as N.
  assert (ES : s' = s).
  { assert (O : orient p P q = 0) by (rewrite Q1; unfold orient, along; cbn; ring). assert (O2 : orient p P q = orient p P a + s' * D) by (rewrite Q2; unfold D, orient, along; cbn; ring). unfold s. apply Rmult_eq_reg_r with D; [|exact N]. unfold Rdiv. rewrite Rmult_assoc, Rinv_l, Rmult_1_r by exact N. lra. }
  assert (ET : t' = t).
  { assert (O : orient a b q = 0) by (rewrite Q2; unfold orient, along; cbn; ring). assert (O2 : orient a b q = orient a b p - t' * D) by (rewrite Q1; unfold D, orient, along; cbn; ring). unfold t. apply Rmult_eq_reg_r with D; [|exact N]. unfold Rdiv. rewrite Rmult_assoc, Rinv_l, Rmult_1_r by exact N. lra. }
  subst s' t'. destruct s_gap as [G1 G2]. destruct D_bound as [H _]. assert (Pi : 0 < i) by (apply Rinv_0_lt_compat; lra). assert (S1 : 0 < s < 1) by lra.
  destruct (Req_dec t 0) as [T0|T0]; [apply (t_zero T0); lra|]. pose proof (t_below S1). assert (crossb p P a b = true) by (apply crossb_param; lra). congruence.
Qed.
End Side.
(** The intersection point of the program. *)
Lemma wb_exact : forall M k x u, wb M k x u -> exactly x u.
Proof. intros M k x u [[E V] _]. destruct (ex0 _ _ E) as [D H]. split; [exact D|]. rewrite V. exact H. Qed.
Lemma sub_far : forall x y u v, exactly x u -> exactly y v -> Rabs u <= 2000 -> Rabs v <= 1000000 -> 100 <= Rabs (v - u) -> exactly (Fsub x y) (value (Fsub x y)) /\ 1 <= Rabs (value (Fsub x y)) <= 2000000.
Proof.
  intros x y u v Ex Ey Bu Bv H. destruct (ap_sub _ _ _ _ _ _ _ _ (ap_exact _ _ _ Ex Bu) (ap_exact _ _ _ Ey Bv) ltac:(lra)) as (S1 & S2 & S3). split; [split; [exact S1|reflexivity]|].
  assert (A : Rabs (u - v) <= Rabs (value (Fsub x y)) + Rabs (value (Fsub x y) - (u - v))). { replace (u - v) with (value (Fsub x y) - (value (Fsub x y) - (u - v))) at 1 by ring. eapply Rle_trans; [apply Rabs_triang|]. rewrite Rabs_Ropp. lra. }
  rewrite Rabs_minus_sym in H. split; [lra|]. eapply Rle_trans; [eapply abs_err; [exact S2|exact S3]|lra].
Qed.
Lemma ip_ray : forall L (p P : pt (FA L)) (t : seg (FA L)) (p' P' : pt RA) (t' : seg RA), exact_pt p p' -> exact_pt P P' -> exact_seg t t' -> lattice 2000 p' -> whole_seg t' -> sees p' P' (si t') (sj t') ->
  let D := orient p' P' (sj t') - orient p' P' (si t') in let q := along (si t') (sj t') (- orient p' P' (si t') / D) in
  exists wx wy, intersection_point (LineSegment p P) t = Ok (Some (@mkpt (FA L) wx wy)) /\ double wx /\ double wy /\ Rabs (value wx - px q) <= ray_err D (px q) /\ Rabs (value wy - py q) <= ray_err D (py q) /\
    (px (si t') = px (sj t') -> Rabs (value wx - px (si t')) <= 6 / 10 ^ 9) /\ (py (si t') = py (sj t') -> Rabs (value wy - py (si t')) <= 6 / 10 ^ 9).
Proof.
  intros L p P t p' P' t' Ep EP (_ & Ea & Eb) Lp [La Lb] SEES D q. pose proof (D_nz _ _ _ _ SEES) as NZ. pose proof (D_eq p' P' (si t') (sj t')) as DE. pose proof (D_bound _ _ _ _ Lp La Lb SEES) as DB. fold D in NZ, DE, DB.
  destruct SEES as (S1 & S2 & S3 & S4 & _). destruct (whole_abs _ Lp) as [P1 P2]. destruct (whole_abs _ La) as [A1 A2]. destruct (whole_abs _ Lb) as [B1 B2].
  destruct (wpt_wb L _ _ (conj Ea La)) as (ka & la & Wa & Wa'). destruct (wpt_wb L _ _ (conj Eb Lb)) as (kb & lb & Wb & Wb').
  destruct Ep as [E1 E1']. destruct EP as [E2 E2']. destruct Ea as [E3 E3']. destruct Eb as [E4 E4'].
  destruct p as [x1 y1]. destruct P as [x2 y2]. destruct t as [ct [x3 y3] [x4 y4]]. destruct p' as [a1 b1]. destruct P' as [X Y]. destruct t' as [ct' [a3 b3] [a4 b4]]. cbn [px py si sj] in *.
  pose proof (den_ap x1 y1 x2 y2 x3 y3 x4 y4 _ _ _ _ _ _ _ _ E1 E1' E2 E2' E3 E3' E4 E4' P1 P2 S1 S2 A1 A2 B1 B2) as HD.
  pose proof (cross_ap x1 y1 x2 y2 x3 y3 x4 y4 _ _ _ _ _ _ _ _ E1 E1' E2 E2' E3 E3' E4 E4' P1 P2 S1 S2 A1 A2 B1 B2) as HC.
  pose proof (numx_ap x1 y1 x2 y2 x3 y3 x4 y4 _ _ _ _ _ _ _ _ E1 E1' E2 E2' E3 E3' E4 E4' P1 P2 S1 S2 A1 A2 B1 B2) as HX.
  pose proof (numy_ap x1 y1 x2 y2 x3 y3 x4 y4 _ _ _ _ _ _ _ _ E1 E1' E2 E2' E3 E3' E4 E4' P1 P2 S1 S2 A1 A2 B1 B2) as HY.
  replace ((a1 - X) * (b3 - b4) - (b1 - Y) * (a3 - a4)) with D in HD, HC by (rewrite DE; ring).
  destruct (coord_err _ _ _ _ HX HD (proj1 DB)) as (VD & VX & VX'). destruct (coord_err _ _ _ _ HY HD (proj1 DB)) as (_ & VY & VY').
  assert (QX : ((a1 * Y - b1 * X) * (a3 - a4) - (a1 - X) * (a3 * b4 - b3 * a4)) / D = px q) by (unfold q, along; cbn [px]; ra_simpl; rewrite DE in *; unfold orient; cbn [px py]; field; exact NZ).
  assert (QY : ((a1 * Y - b1 * X) * (b3 - b4) - (b1 - Y) * (a3 * b4 - b3 * a4)) / D = py q) by (unfold q, along; cbn [py]; ra_simpl; rewrite DE in *; unfold orient; cbn [px py]; field; exact NZ).
  rewrite QX in VX'. rewrite QY in VY'.
  assert (PA : is_parallel (LineSegment (@mkpt (FA L) x1 y1) (@mkpt (FA L) x2 y2)) (@mkseg (FA L) ct (@mkpt (FA L) x3 y3) (@mkpt (FA L) x4 y4)) = false).
  { unfold is_parallel. destruct HC as (C1 & C2 & _). match goal with |- (if ?b then true else false) = false => assert (Z : b = false); [|rewrite Z; reflexivity] end.
    change (SFeqb (Fsub (Fmul (Fsub x2 x1) (Fsub y4 y3)) (Fmul (Fsub y2 y1) (Fsub x4 x3))) (FofZ 0) = false). destruct (ex0 _ _ (ex_zero 0)) as [Z1 Z2]. rewrite feqb by auto. apply Req_bool_false. rewrite Z2. intros E. rewrite E in C2. rewrite Rabs_minus_sym, Rminus_0_r in C2. lra. }
  assert (PD : neqb (Arith := FA L) (Fsub (Fmul (Fsub x1 x2) (Fsub y3 y4)) (Fmul (Fsub y1 y2) (Fsub x3 x4))) n0 = false).
  { destruct HD as (C1 & _). change (SFeqb (Fsub (Fmul (Fsub x1 x2) (Fsub y3 y4)) (Fmul (Fsub y1 y2) (Fsub x3 x4))) (FofZ 0) = false). destruct (ex0 _ _ (ex_zero 0)) as [Z1 Z2]. rewrite feqb by auto. apply Req_bool_false. rewrite Z2. exact VD. }
  assert (DU : double (Fsub (Fmul x1 y2) (Fmul y1 x2))) by (eapply proj1; eapply ap_sub; [eapply ap_mul; [eapply ap_exact; eassumption|eapply ap_exact; eassumption|lra]|eapply ap_mul; [eapply ap_exact; eassumption|eapply ap_exact; eassumption|lra]|lra]).
  assert (DX : double (Fsub x1 x2)) by (eapply proj1; eapply ap_sub; [eapply ap_exact; eassumption|eapply ap_exact; eassumption|lra]).
  assert (DY : double (Fsub y1 y2)) by (eapply proj1; eapply ap_sub; [eapply ap_exact; eassumption|eapply ap_exact; eassumption|lra]).
  eexists _, _. split; [|split; [exact VX|split; [exact VY|split; [exact VX'|split; [exact VY'|split]]]]].
  - unfold intersection_point. rewrite PA. cbv zeta. cbn [si sj px py LineSegment]. unfold pdiv.
    change (nsub (Arith := FA L) (nmul (Arith := FA L) (nsub (Arith := FA L) x1 x2) (nsub (Arith := FA L) y3 y4)) (nmul (Arith := FA L) (nsub (Arith := FA L) y1 y2) (nsub (Arith := FA L) x3 x4))) with (Fsub (Fmul (Fsub x1 x2) (Fsub y3 y4)) (Fmul (Fsub y1 y2) (Fsub x3 x4))).
    rewrite PD. reflexivity.
  - intros EX. subst a4. assert (Hz : exactly (Fsub x3 x4) (a3 - a3)) by (eapply wb_exact; eapply wb_sub; [exact Wa|exact Wb|reflexivity]). destruct Hz as [Z1 Z2]. rewrite Rminus_diag_eq in Z2 by reflexivity.
    assert (He : exactly (Fsub y3 y4) (b3 - b4)) by (eapply wb_exact; eapply wb_sub; [exact Wa'|exact Wb'|reflexivity]).
    assert (Hk : exactly (Fsub (Fmul x3 y4) (Fmul y3 x4)) (- (a3 * (b3 - b4)))) by (replace (- (a3 * (b3 - b4))) with (a3 * b4 - b3 * a3) by ring; eapply wb_exact; wbs).
    destruct (sub_far _ _ _ _ E1 E2 P1 S1 ltac:(rewrite Rabs_pos_eq; lra)) as [M1 M2].
    assert (Bev : 1 <= Rabs (b3 - b4) <= 4000).
    { split; [|eapply Rle_trans; [apply Rabs_triang|rewrite Rabs_Ropp; lra]]. destruct Wa' as [[_ Wa'] _]. destruct Wb' as [[_ Wb'] _]. rewrite Wa', Wb' in *. apply whole_gap. intros E. apply NZ. rewrite DE, E. ring. }
    exact (proj2 (axis_vertical _ _ _ _ _ _ _ _ _ _ DU DY Z1 Z1 Z2 Z2 M1 M2 He Bev A1 Hk)).
  - intros EY. subst b4. assert (Hz : exactly (Fsub y3 y4) (b3 - b3)) by (eapply wb_exact; eapply wb_sub; [exact Wa'|exact Wb'|reflexivity]). destruct Hz as [Z1 Z2]. rewrite Rminus_diag_eq in Z2 by reflexivity.
    assert (He : exactly (Fsub x3 x4) (a3 - a4)) by (eapply wb_exact; eapply wb_sub; [exact Wa|exact Wb|reflexivity]).
    assert (Hk : exactly (Fsub (Fmul x3 y4) (Fmul y3 x4)) (b3 * (a3 - a4))) by (replace (b3 * (a3 - a4)) with (a3 * b3 - b3 * a4) by ring; eapply wb_exact; wbs).
    destruct (sub_far _ _ _ _ E1' E2' P2 ltac:(lra) S4) as [M1 M2].
    assert (Bev : 1 <= Rabs (a3 - a4) <= 4000).
    { split; [|eapply Rle_trans; [apply Rabs_triang|rewrite Rabs_Ropp; lra]]. destruct Wa as [[_ Wa] _]. destruct Wb as [[_ Wb] _]. rewrite Wa, Wb in *. apply whole_gap. intros E. apply NZ. rewrite DE, E. ring. }
    exact (proj2 (axis_horizontal _ _ _ _ _ _ _ _ _ _ DU DX Z1 Z1 Z2 Z2 M1 M2 He Bev A2 Hk)).
Qed.

Lemma ray_side : forall L (p P : pt (FA L)) (t : seg (FA L)) (p' P' : pt RA) (t' : seg RA), exact_pt p p' -> exact_pt P P' -> exact_seg t t' -> lattice 2000 p' -> whole_seg t' -> sees p' P' (si t') (sj t') ->
  intersection_on_segment (LineSegment p P) t = Ok (crossb p' P' (si t') (sj t')).
Proof.
  intros L p P t p' P' t' Ep EP Et Lp Lt SEES. pose proof (ip_ray L p P t p' P' t' Ep EP Et Lp Lt SEES) as IP. destruct Et as (_ & Ea & Eb). destruct Lt as [La Lb].
  pose proof (q_ab _ _ _ _ SEES) as QE. pose proof (D_bound _ _ _ _ Lp La Lb SEES) as DB. pose proof (s_gap _ _ _ _ SEES) as [SG1 SG2]. pose proof (t_gap _ _ _ _ Lp La Lb SEES) as TG. pose proof (t_zero _ _ _ _ Lp SEES) as TZ. pose proof (crossb_param _ _ _ _ SEES) as CP. pose proof (t_below _ _ _ _ Lp SEES) as TB.
  destruct (whole_abs _ Lp) as [P1 P2]. destruct (whole_abs _ La) as [A1 A2]. destruct (whole_abs _ Lb) as [B1 B2]. destruct SEES as (S1 & S2 & S3 & S4 & S5 & S6 & S7 & S8 & S9 & S10).
  assert (TO : touch (LineSegment p P) t = false).
  { apply touch_off. intros x y I J. assert (Na : p' <> si t') by (intros E; apply S10; exists 0; split; [lra|]; rewrite E; unfold along; destruct (si t'); cbn; f_equal; ra_simpl; ring). assert (Nb : p' <> sj t') by (intros E; apply S10; exists 1; split; [lra|]; rewrite E; unfold along; destruct (sj t'); cbn; f_equal; ra_simpl; ring).
    destruct I as [<-|[<-|[]]]; destruct J as [<-|[<-|[]]]; cbn [LineSegment si sj].
    - apply (off_distance L p (si t) p' (si t') Ep Ea); try lra. apply whole_off; auto.
    - apply (off_distance L p (sj t) p' (sj t') Ep Eb); try lra. apply whole_off; auto.
    - apply (off_distance L P (si t) P' (si t') EP Ea); try lra. left. rewrite Rabs_pos_eq; lra.
    - apply (off_distance L P (sj t) P' (sj t') EP Eb); try lra. left. rewrite Rabs_pos_eq; lra. }
  set (D := orient p' P' (sj t') - orient p' P' (si t')) in *. set (s := - orient p' P' (si t') / D) in *. set (r := orient (si t') (sj t') p' / D) in *. set (i := / Rabs D) in *. cbv zeta in IP. set (q := along (si t') (sj t') s) in *.
  destruct IP as (wx & wy & IP & Dx & Dy & Wx & Wy & Vx & Vy). unfold intersection_on_segment. rewrite TO, IP. cbn [bind].
  match goal with |- Ok (if ?b then true else false) = _ => replace (if b then true else false) with b by (destruct b; reflexivity) end. f_equal.
  assert (Pi : 0 < i) by (apply Rinv_0_lt_compat; lra).
  assert (QX : px q = px (si t') + s * (px (sj t') - px (si t'))) by reflexivity. assert (QY : py q = py (si t') + s * (py (sj t') - py (si t'))) by reflexivity.
  assert (RX : px q = px p' + r * (px P' - px p')) by (rewrite <- QE; reflexivity). assert (RY : py q = py p' + r * (py P' - py p')) by (rewrite <- QE; reflexivity).
  assert (GX : px (si t') = px (sj t') \/ 1 <= Rabs (px (sj t') - px (si t'))). { destruct La as (? & ? & X1 & _). destruct Lb as (? & ? & X2 & _). rewrite X1, X2. destruct (Req_dec (IZR x) (IZR x1)); [left; assumption|right; apply whole_gap; auto]. }
  assert (GY : py (si t') = py (sj t') \/ 1 <= Rabs (py (sj t') - py (si t'))). { destruct La as (? & ? & _ & X1 & _). destruct Lb as (? & ? & _ & X2 & _). rewrite X1, X2. destruct (Req_dec (IZR x0) (IZR x2)); [left; assumption|right; apply whole_gap; auto]. }
  assert (OUT : s <= - (1000 * i) \/ 1 - s <= - (1000 * i) -> ls_is_internal_point (LineSegment p P) (@mkpt (FA L) wx wy) && ls_is_internal_point t (@mkpt (FA L) wx wy) = crossb p' P' (si t') (sj t')).
  { intros O. assert (C : crossb p' P' (si t') (sj t') = false) by (apply not_true_iff_false; rewrite CP; lra). rewrite C. apply andb_false_iff. right. apply (box_false L t _ _ wx wy Ea Eb); try lra; try assumption.
    destruct GX as [G|G]; [destruct GY as [G'|G']|].
    - exfalso. assert (Z : D = 0) by (unfold D, orient; rewrite G, G'; ring). rewrite Z, Rabs_R0 in DB. lra.
    - right. right. apply (side_out _ _ s D (py q) _ i); auto.
    - assert (K : value wx <= Rmin (px (si t')) (px (sj t')) - 12 / 10 ^ 9 \/ Rmax (px (si t')) (px (sj t')) + 12 / 10 ^ 9 <= value wx) by (apply (side_out _ _ s D (px q) _ i); auto). destruct K; auto. }
  destruct (Rlt_le_dec 0 s) as [Hs|Hs]; [destruct (Rlt_le_dec s 1) as [Hs'|Hs']|].
  - assert (SS1 : 1000 * i <= s) by lra. assert (SS2 : 1000 * i <= 1 - s) by lra. clear SG1 SG2. specialize (TB (conj Hs Hs')).
    assert (CV : forall a b, Rabs a <= 2000 -> Rabs b <= 2000 -> Rabs (a + s * (b - a)) <= 2000) by (clear - Hs Hs'; intros a b Ha Hb; apply Rabs_le_inv in Ha; apply Rabs_le_inv in Hb; apply Rabs_le; split; nra).
    assert (Bqx : Rabs (px q) <= 2000) by (rewrite QX; apply CV; assumption). assert (Bqy : Rabs (py q) <= 2000) by (rewrite QY; apply CV; assumption).
    assert (WX : Rabs (value wx - px q) <= 21 / 1000 * i + 53 / 10 ^ 10) by (eapply Rle_trans; [exact Wx|apply (err_small D); [lra|reflexivity|exact Bqx]]).
    assert (WY : Rabs (value wy - py q) <= 21 / 1000 * i + 53 / 10 ^ 10) by (eapply Rle_trans; [exact Wy|apply (err_small D); [lra|reflexivity|exact Bqy]]).
    assert (SIDE : ls_is_internal_point t (@mkpt (FA L) wx wy) = true).
    { apply (box_true L t _ _ wx wy Ea Eb); try lra; try assumption.
      - destruct GX as [G|G]; [rewrite <- G; apply axis_in; apply Vx; exact G|]. apply (side_in _ _ s D (px q) _ i); auto; try lra.
      - destruct GY as [G|G]; [rewrite <- G; apply axis_in; apply Vy; exact G|]. apply (side_in _ _ s D (py q) _ i); auto; try lra. }
    rewrite SIDE, andb_true_r. destruct TG as [T|[T|T]].
    + exfalso. apply TZ; lra.
    + assert (C : crossb p' P' (si t') (sj t') = true) by (apply CP; lra). rewrite C.
      assert (H2 : 2000 <= Rabs D) by (assert (I1 : i * Rabs D = 1) by (unfold i; apply Rinv_l; lra); clear - I1 SS1 SS2 DB Pi; nra).
      apply (box_true L (LineSegment p P) p' P' wx wy Ep EP); try lra; try assumption.
      * apply (ray_in _ _ r D (px q) _ i); auto. rewrite Rabs_pos_eq; lra.
      * apply (ray_in _ _ r D (py q) _ i); auto.
    + assert (C : crossb p' P' (si t') (sj t') = false) by (apply not_true_iff_false; rewrite CP; lra). rewrite C.
      apply (box_false L (LineSegment p P) p' P' wx wy Ep EP); try lra; try assumption. left. apply (ray_out _ _ r D (px q) _ i); auto.
  - apply OUT. lra.
  - apply OUT. lra.
Qed.
(** * The end of the ray *)
Lemma round8_err : forall w, double w -> double (Fround8 w) /\ Rabs (value (Fround8 w) - value w) <= 52 / 10 ^ 10 + Rabs (value w) / 2 ^ 52.
Proof.
  intros w Dw. destruct (fround8 w Dw) as [G1 G2]. split; [exact G1|]. set (v := value (Fround8 w)) in *. set (z := IZR (ZnearestE (value w * 10 ^ 8)) / 10 ^ 8) in *.
  assert (R2 : Rabs (z - value w) <= 5 / 10 ^ 9).
  { pose proof (Znearest_half (fun n => negb (Z.even n)) (value w * 10 ^ 8)) as H. unfold z. replace (IZR (ZnearestE (value w * 10 ^ 8)) / 10 ^ 8 - value w) with (- (value w * 10 ^ 8 - IZR (ZnearestE (value w * 10 ^ 8))) * / 10 ^ 8) by field.
    rewrite Rabs_mult, Rabs_Ropp, (Rabs_pos_eq (/ 10 ^ 8)) by (left; apply Rinv_0_lt_compat; lra). lra. }
  pose proof (rnd_rel z) as R3. rewrite <- G2 in R3. clear - R2 R3.
  assert (Z : Rabs z <= Rabs (value w) + Rabs (z - value w)) by (replace z with (value w + (z - value w)) at 1 by ring; apply Rabs_triang).
  replace (v - value w) with ((v - z) + (z - value w)) by ring. eapply Rle_trans; [apply Rabs_triang|]. pose proof (Rabs_pos (value w)). lra.
Qed.
Lemma uniform_err : forall L n k x (u : R) d, wb 2000 k x u -> (0 <= n <= 500)%Z -> double d -> 0 <= value d < 1 ->
  let w := Fround8 (uniform (A := FA L) x (Fmul (FofZ n) x) d) in double w /\ Rabs (value w - (u + (IZR n * u - u) * value d)) <= 1 / 10 ^ 5.
Proof.
  intros L n k x u d W N Dd Vd w. assert (Wn : wb 500 n (FofZ n) (IZR n)) by (split; [split; [apply ex0_intro; apply FofZ_exact; lia|reflexivity]|lia]).
  assert (E : exactly (Fsub (Fmul (FofZ n) x) x) (IZR n * u - u)) by (eapply wb_exact; wbs).
  assert (Bu : Rabs u <= 2000) by (destruct W as [[_ ->] K]; rewrite <- abs_IZR; apply IZR_le; exact K).
  assert (Bd : Rabs (IZR n * u - u) <= 1002000).
  { replace (IZR n * u - u) with ((IZR n - 1) * u) by ring. rewrite Rabs_mult. assert (0 <= IZR n <= 500) by (split; apply IZR_le; lia). assert (Rabs (IZR n - 1) <= 500) by (apply Rabs_le; lra).
    apply Rle_trans with (500 * 2000); [|lra]. apply Rmult_le_compat; auto using Rabs_pos. }
  assert (Ed : ap 0 1 d (value d)) by (apply ap_exact; [split; [exact Dd|reflexivity]|rewrite Rabs_pos_eq; lra]).
  pose proof (ap_mul _ _ _ _ _ _ _ _ (ap_exact _ _ _ E Bd) Ed ltac:(lra)) as M. destruct M as (M1 & M2 & M3). set (m := Fmul (Fsub (Fmul (FofZ n) x) x) d) in *.
  destruct (wb_exact _ _ _ _ W) as [X1 X2]. assert (Bm : Rabs (value m) <= 1002001) by (eapply Rle_trans; [eapply abs_err; [exact M2|exact M3]|lra]).
  assert (Bs : Rabs (value x + value m) <= 1004001) by (eapply Rle_trans; [apply Rabs_triang|]; rewrite X2; lra).
  destruct (fadd x m X1 M1) as [A1 A2]; [rewrite b60; lra|]. change w with (Fround8 (Fadd x m)). destruct (round8_err _ A1) as [R1 R2]. split; [exact R1|].
  pose proof (rnd_rel (value x + value m)) as R3. rewrite <- A2 in R3. set (v := value (Fround8 (Fadd x m))) in *. set (y := value (Fadd x m)) in *.
  assert (By : Rabs y <= 1004002) by (eapply Rle_trans; [eapply abs_err; [exact R3|exact Bs]|lra]). set (T := (IZR n * u - u) * value d) in *.
  replace (v - (u + T)) with ((v - y) + ((y - (value x + value m)) + (value m - T))) by (rewrite X2; ring). eapply Rle_trans; [apply Rabs_triang|].
  assert (Q : Rabs (y - (value x + value m) + (value m - T)) <= Rabs (y - (value x + value m)) + Rabs (value m - T)) by apply Rabs_triang. lra.
Qed.
(** * The bounding box *)
Definition bb_exact L (b : (F * F) * (F * F)) (b' : (R * R) * (R * R)) : Prop :=
  exactly (fst (fst b)) (fst (fst b')) /\ exactly (snd (fst b)) (snd (fst b')) /\ exactly (fst (snd b)) (fst (snd b')) /\ exactly (snd (snd b)) (snd (snd b')) /\ @eq Libm L L.
Lemma minmax_RA : forall L x y u v, exactly x u -> exactly y v -> exactly (nmin (A := FA L) x y) (nmin (A := RA) u v) /\ exactly (nmax (A := FA L) x y) (nmax (A := RA) u v).
Proof.
  intros L x y u v E F. unfold nmin, nmax. change (@nltb (FA L) y x) with (SFltb y x). change (@nltb (FA L) x y) with (SFltb x y). change (@nltb RA v u) with (Rltb v u). change (@nltb RA u v) with (Rltb u v).
  rewrite (exactly_ltb y x _ _ F E), (exactly_ltb x y _ _ E F). destruct (Rltb v u), (Rltb u v); auto.
Qed.
Lemma bb_step_exact : forall L b b' s s', bb_exact L b b' -> exact_seg s s' -> bb_exact L (bb_step (A := FA L) b s) (bb_step (A := RA) b' s').
Proof.
  intros L [[a b] [c d]] [[a' b'] [c' d']] s s' (H1 & H2 & H3 & H4 & _) (_ & [E1 E2] & [E3 E4]). cbn [fst snd] in *. unfold bb_step, bb_exact. cbn [fst snd].
  destruct (minmax_RA L _ _ _ _ E1 E3) as [M1 M2]. destruct (minmax_RA L _ _ _ _ E2 E4) as [M3 M4].
  split; [apply (minmax_RA L _ _ _ _ H1 M1)|]. split; [apply (minmax_RA L _ _ _ _ H2 M2)|]. split; [apply (minmax_RA L _ _ _ _ H3 M3)|]. split; [apply (minmax_RA L _ _ _ _ H4 M4)|reflexivity].
Qed.
Lemma big_exact : forall L, exactly (nofZ (Arith := FA L) 100000000000) (nofZ (Arith := RA) 100000000000) /\ exactly (nopp (Arith := FA L) (nofZ (Arith := FA L) 100000000000)) (nopp (Arith := RA) (nofZ (Arith := RA) 100000000000)).
Proof. intros L. split; edec. Qed.
Lemma bb_fold_exact : forall L l l', exact_segs (L := L) l l' -> forall b b', bb_exact L b b' -> bb_exact L (fold_left (bb_step (A := FA L)) l b) (fold_left (bb_step (A := RA)) l' b').
Proof. intros L l l' H. induction H as [|s s' l l' E H IH]; intros b b' B; [exact B|]. cbn [fold_left]. apply IH. apply bb_step_exact; assumption. Qed.
Lemma bb_doubles : forall L l l', exact_segs (L := L) l l' -> bb_exact L (bounding_box (A := FA L) l) (bounding_box (A := RA) l').
Proof.
  intros L l l' H. unfold bounding_box. apply bb_fold_exact; [exact H|]. destruct (big_exact L) as [B1 B2]. unfold bb0, bb_exact. cbn [fst snd].
  repeat split; try apply B1; try apply B2.
Qed.
(** * Counting the sides *)
Lemma filterM_sim : forall X Y (Q : X -> Y -> Prop) (f : X -> res bool) (g : Y -> bool) l l', Forall2 Q l l' -> (forall x y, Q x y -> In y l' -> f x = Ok (g y)) ->
  exists m, filterM f l = Ok m /\ length m = length (filter g l').
Proof.
  intros X Y Q f g l l' H. induction H as [|x y l l' E H IH]; intros G; [exists []; split; reflexivity|]. destruct IH as (m & M1 & M2); [intros a b E' I; apply G; [exact E'|right; exact I]|].
  cbn [filterM filter]. rewrite (G x y E (or_introl eq_refl)), M1. cbn [bind]. destruct (g y); eexists; (split; [reflexivity|]); cbn [length]; rewrite M2; reflexivity.
Qed.
Lemma wsegs : forall L l l', exact_segs (L := L) l l' -> Forall whole_seg l' -> Forall2 (wseg L) l l'.
Proof.
  intros L l l' H. induction H as [|s s' l l' (C & E1 & E2) H IH]; intros W; [constructor|]. inversion W as [|? ? [W1 W2] W3]; subst. constructor; [|apply IH; exact W3]. split; [exact C|]. split; split; assumption.
Qed.
(** A slightly different end of the ray. *)
Lemma orient_near : forall p P T v : pt RA, lattice 2000 p -> lattice 2000 v -> Rabs (px P - px T) <= 1 / 10 ^ 5 -> Rabs (py P - py T) <= 1 / 10 ^ 5 -> Rabs (orient p P v - orient p T v) <= 8 / 100.
Proof.
  intros p P T v Lp Lv H1 H2. destruct (whole_abs _ Lp) as [P1 P2]. destruct (whole_abs _ Lv) as [V1 V2].
  replace (orient p P v - orient p T v) with ((px P - px T) * (py v - py p) - (py P - py T) * (px v - px p)) by (unfold orient; ring).
  assert (G : forall a b, Rabs a <= 2000 -> Rabs b <= 2000 -> Rabs (a - b) <= 4000) by (intros a b A B; eapply Rle_trans; [apply Rabs_triang|rewrite Rabs_Ropp; lra]).
  eapply Rle_trans; [apply Rabs_triang|]. rewrite Rabs_Ropp, !Rabs_mult.
  assert (Rabs (px P - px T) * Rabs (py v - py p) <= 1 / 10 ^ 5 * 4000) by (apply Rmult_le_compat; auto using Rabs_pos).
  assert (Rabs (py P - py T) * Rabs (px v - px p) <= 1 / 10 ^ 5 * 4000) by (apply Rmult_le_compat; auto using Rabs_pos). lra.
Qed.
Lemma abs_near : forall a b e, Rabs (a - b) <= e -> Rabs b <= Rabs a + e.
Proof. intros a b e H. replace b with (a - (a - b)) at 1 by ring. eapply Rle_trans; [apply Rabs_triang|]. rewrite Rabs_Ropp. lra. Qed.
Lemma clears_sees : forall vs p P T, lattice 2000 p -> (forall v, In v vs -> lattice 2000 v) -> Rabs (py T) <= 90000 -> clears vs p T -> Rabs (px P - px T) <= 1 / 10 ^ 5 -> Rabs (py P - py T) <= 1 / 10 ^ 5 ->
  (forall v, In v vs -> px v < px P) /\ (forall a b, In a vs -> In b vs -> In (a, b) (cycle_edges vs) \/ In (b, a) (cycle_edges vs) -> ~ on_segment a b p -> sees p P a b).
Proof.
  intros vs p P T Lp LV BT (C1 & C2 & C3 & C4 & C5 & C6) H1 H2. destruct (whole_abs _ Lp) as [P1 P2]. pose proof (Rabs_le_inv _ _ H1) as H1'. pose proof (Rabs_le_inv _ _ P1) as P1'. split; [intros v V; specialize (C4 v V); lra|]. intros a b Ia Ib E NO.
  pose proof (orient_near p P T a Lp (LV a Ia) H1 H2) as Oa. pose proof (orient_near p P T b Lp (LV b Ib) H1 H2) as Ob.
  split; [apply Rabs_le; lra|]. split; [assert (K : Rabs (py P) <= Rabs (py T) + 1 / 10 ^ 5); [|lra]; apply abs_near; rewrite Rabs_minus_sym; exact H2|]. split; [lra|]. split.
  { assert (K : Rabs (py T - py p) <= Rabs (py P - py p) + 1 / 10 ^ 5); [|lra]. apply abs_near. replace (py P - py p - (py T - py p)) with (py P - py T) by ring. exact H2. }
  split; [specialize (C4 a Ia); lra|]. split; [specialize (C4 b Ib); lra|]. split; [pose proof (abs_near _ _ _ Oa); specialize (C5 a Ia); lra|]. split; [pose proof (abs_near _ _ _ Ob); specialize (C5 b Ib); lra|]. split; [|exact NO].
  assert (D : 2 <= Rabs (orient p T b - orient p T a)) by (destruct E as [E|E]; [apply C6; exact E|rewrite Rabs_minus_sym; apply C6; exact E]).
  assert (K : Rabs (orient p T b - orient p T a) <= Rabs (orient p P b - orient p P a) + 16 / 100); [|lra]. apply abs_near.
  replace (orient p P b - orient p P a - (orient p T b - orient p T a)) with ((orient p P b - orient p T b) - (orient p P a - orient p T a)) by ring. eapply Rle_trans; [apply Rabs_triang|]. rewrite Rabs_Ropp. lra.
Qed.
(*@ C94_even_odd *)
(** C94: in binary64, for a closed polygon with whole coordinates up to 2000 whose edges are given in any
    order and direction, and a point with whole coordinates that is on no edge: if the rays of the first
    round clear the corners, is_internal_point answers as the even-odd rule, is_external_point the
    opposite, and is_on_boundary False. *)
Lemma internal_double : forall L (vs : list (pt RA)) (l : list (seg (FA L))) (l' : list (seg RA)) (p : pt (FA L)) (p' : pt RA) (xm ym : R) (draws d2 : nat -> F * F) (fuel : nat),
  exact_segs l l' -> Forall whole_seg l' -> polygon_of vs l' -> NoDup l' -> vs <> [] ->
  exact_pt p p' -> lattice 2000 p' -> (forall s, In s l' -> ~ on_segment (si s) (sj s) p') ->
  (exists v, In v vs /\ px v = xm) -> (forall v, In v vs -> px v <= xm) -> (exists v, In v vs /\ py v = ym) -> (forall v, In v vs -> py v <= ym) ->
  (forall k, (k < 3)%nat -> drawn (draws k) /\ clears vs p' (target xm ym (draws k))) ->
  (forall k, (k < 3)%nat -> drawn (d2 k) /\ clears vs p' (target xm ym (d2 k))) ->
  poly_is_internal_point l p draws (S fuel) = Ok (Some (even_odd vs p')) /\
  poly_is_external_point l p draws (S fuel) = Ok (Some (negb (even_odd vs p'))) /\
  is_on_boundary l p draws d2 (S fuel) = Ok (Some false).
Proof.
  intros L vs l l' p p' xm ym draws d2 fuel EX WH PO ND NE Ep Lp NO X1 X2 Y1 Y2 HD1 HD2.
  assert (MAIN : forall draws : nat -> F * F, (forall k, (k < 3)%nat -> drawn (draws k) /\ clears vs p' (target xm ym (draws k))) -> poly_is_internal_point l p draws (S fuel) = Ok (Some (even_odd vs p'))).
  { clear draws d2 HD1 HD2. intros draws HD. pose proof (polygon_ends _ _ PO) as EN. pose proof (wsegs L l l' EX WH) as WS.
    assert (LV : forall v, In v vs -> lattice 2000 v).
    { intros v V. apply EN in V. apply in_flat_map in V. destruct V as (s & S1 & S2). rewrite Forall_forall in WH. destruct (WH s S1) as [W1 W2]. destruct S2 as [<-|[<-|[]]]; assumption. }
    assert (NL : l' <> []) by (intros E; rewrite E in EN; destruct vs as [|v vs']; [contradiction|]; apply (EN v); left; reflexivity).
    destruct (box_max l' xm ym NL) as (x0 & y0 & BB).
    { intros v V. destruct (whole_abs v) as [K1 K2]; [apply LV, EN, V|]. simpl. lra. }
    { destruct X1 as (v & V & E). exists v. split; [apply EN; exact V|exact E]. }
    { intros v V. apply X2, EN, V. }
    { destruct Y1 as (v & V & E). exists v. split; [apply EN; exact V|exact E]. }
    { intros v V. apply Y2, EN, V. }
    pose proof (bb_doubles L l l' EX) as BD. rewrite BB in BD. destruct (bounding_box (A := FA L) l) as [[fx0 fxm] [fy0 fym]] eqn:FB. destruct BD as (_ & BX & _ & BY & _). cbn [fst snd] in BX, BY.
    assert (Wx : exists k, wb 2000 k fxm xm).
    { destruct X1 as (v & V & <-). destruct (LV v V) as (a & b & A & B & A' & B'). exists a. split; [|exact A']. split; [|exact A]. apply ex0_intro; [apply BX|]. rewrite <- A. apply BX. }
    assert (Wy : exists k, wb 2000 k fym ym).
    { destruct Y1 as (v & V & <-). destruct (LV v V) as (a & b & A & B & A' & B'). exists b. split; [|exact B']. split; [|exact B]. apply ex0_intro; [apply BY|]. rewrite <- B. apply BY. }
    destruct Wx as (kx & Wx). destruct Wy as (ky & Wy).
    unfold poly_is_internal_point. replace (existsb (fun q => pt_eqb q p) (point_set l)) with false.
    2:{ symmetry. apply not_true_is_false. intros E. apply existsb_exists in E as (v & V & E). unfold point_set in V. apply (Permutation_in _ (sort_by_perm _ _ _)) in V. apply dedup_acc_incl in V. destruct V as [V|[]].
        unfold all_points in V. apply (Permutation_in _ (sort_by_perm _ _ _)) in V. apply in_flat_map in V. destruct V as (s & S1 & S2).
        assert (W : exists s', In s' l' /\ wseg L s s') by (clear - WS S1; induction WS as [|a b l l' W WS IH]; [destruct S1|]; destruct S1 as [<-|S1]; [exists b; split; [left; reflexivity|exact W]|]; destruct (IH S1) as (s' & I & W'); exists s'; split; [right; exact I|exact W']).
        destruct W as (s' & I' & _ & W1 & W2). assert (Wp : wpt L p p') by (split; assumption).
        assert (K : exists v', In v' [si s'; sj s'] /\ v' = p').
        { destruct S2 as [<-|[<-|[]]].
          - rewrite (ept_eq L _ _ _ _ (wpt_ept L _ _ W1) (wpt_ept L _ _ Wp)) in E. apply (lattice_eqb 2000) in E; [|apply W1|exact Lp]. exists (si s'). split; [left; reflexivity|exact E].
          - rewrite (ept_eq L _ _ _ _ (wpt_ept L _ _ W2) (wpt_ept L _ _ Wp)) in E. apply (lattice_eqb 2000) in E; [|apply W2|exact Lp]. exists (sj s'). split; [right; left; reflexivity|exact E]. }
        apply (NO s' I'). destruct K as (v' & [<-|[<-|[]]] & <-); [exists 0|exists 1]; (split; [lra|]); unfold along; [destruct (si s')|destruct (sj s')]; cbn; f_equal; ra_simpl; ring. }
    assert (RC : forall k, (k < 3)%nat -> exists n, ray_count l p (draws k) = Ok n /\ Nat.odd n = even_odd vs p').
    { intros k K. destruct (HD k K) as [(D1 & D2 & D3 & D4) CL]. unfold ray_count.
      set (wx := Fround8 (uniform (A := FA L) fxm (Fmul (FofZ 500) fxm) (fst (draws k)))). set (wy := Fround8 (uniform (A := FA L) fym (Fmul (FofZ 30) fym) (snd (draws k)))).
      assert (RE : ray_end l (draws k) = @mkpt (FA L) wx wy) by (unfold ray_end; rewrite FB; reflexivity). rewrite RE. clear RE.
      destruct (uniform_err L 500 kx fxm xm _ Wx ltac:(lia) D1 D3) as [U1 U2]. fold wx in U1, U2. destruct (uniform_err L 30 ky fym ym _ Wy ltac:(lia) D2 D4) as [U3 U4]. fold wy in U3, U4. clearbody wx wy.
      set (P := @mkpt RA (value wx) (value wy)). assert (EP : exact_pt (@mkpt (FA L) wx wy) P) by (split; split; assumption || reflexivity).
      assert (BT : Rabs (py (target xm ym (draws k))) <= 90000).
      { unfold target. cbn [py]. assert (Bm : Rabs ym <= 2000) by (destruct Wy as [[_ ->] Q]; rewrite <- abs_IZR; apply IZR_le; exact Q). apply Rabs_le_inv in Bm. apply Rabs_le. split; nra. }
      destruct (clears_sees vs p' P (target xm ym (draws k)) Lp LV BT CL U2 U4) as [SX SS].
      assert (SEE : forall s, In s l' -> sees p' P (si s) (sj s)).
      { intros s S1. assert (IV : In (si s) vs /\ In (sj s) vs) by (split; apply EN; apply in_flat_map; exists s; (split; [exact S1|]); [left|right; left]; reflexivity). apply SS; [apply IV|apply IV|apply (polygon_edge _ _ _ PO S1)|apply NO; exact S1]. }
      assert (DS : Forall2 (wseg L) (dedup seg_sameb l) (dedup seg_sameb l')) by (apply rel_dedup; [|exact WS]; intros a b c d H1 H2; apply (eseg_eq L); apply wseg_eseg; assumption).
      destruct (filterM_sim _ _ (wseg L) (intersection_on_segment (LineSegment p (@mkpt (FA L) wx wy))) (fun s => crossb p' P (si s) (sj s)) _ _ DS) as (m & M1 & M2).
      { intros s s' (C & [W1 W1'] & [W2 W2']) I. apply (proj1 (dedup_In _ _ seg_sameb_iff _ _)) in I. apply (ray_side L p (@mkpt (FA L) wx wy) s p' P s' Ep EP); [split; [exact C|split; assumption]|exact Lp|split; assumption|apply SEE; exact I]. }
      rewrite M1. cbn [bind]. exists (length m). split; [reflexivity|]. rewrite M2, odd_filter, (parity_perm _ _ (Permutation_map _ (dedup_perm l' ND))), (polygon_parity vs) by exact PO. apply cycle_parity; [exact SX|].
      intros a b I. destruct (cycle_edges_In _ _ _ _ I) as [Ia Ib].
      assert (NOab : ~ on_segment a b p').
      { destruct PO as (lp & PM & F2). assert (G : exists s, In s lp /\ joins (a, b) s) by (clear - F2 I; induction F2 as [|e s E lp J F2 IH]; [destruct I|]; destruct I as [->|I]; [exists s; split; [left; reflexivity|exact J]|]; destruct (IH I) as (s' & I1 & I2); exists s'; split; [right; exact I1|exact I2]).
        destruct G as (s & G1 & G2). apply (Permutation_in _ (Permutation_sym PM)) in G1. destruct G2 as [[Q1 Q2]|[Q1 Q2]]; cbn [fst snd] in Q1, Q2; intros O; apply (NO s G1); rewrite Q1, Q2; [exact O|apply on_segment_sym; exact O]. }
      apply no_shared; [exact Lp|apply LV; exact Ia|apply LV; exact Ib|apply SS; auto]. }
    simpl. destruct (RC 0%nat) as (n0 & -> & O0); [lia|]. destruct (RC 1%nat) as (n1 & -> & O1); [lia|]. destruct (RC 2%nat) as (n2 & -> & O2); [lia|]. cbn [bind]. rewrite O0, O1, O2, eqb_reflx. reflexivity. }
  pose proof (MAIN draws HD1) as M1. pose proof (MAIN d2 HD2) as M2. clear MAIN. split; [exact M1|]. split; [unfold poly_is_external_point; rewrite M1; reflexivity|].
  unfold is_on_boundary. rewrite M1. cbn [bind]. destruct (even_odd vs p'); [reflexivity|]. unfold poly_is_external_point. rewrite M2. reflexivity.
Qed.

(*@ex C94_example *)
(** C94: an L-shaped polygon with its edges in mixed order and direction, a point inside it and a point
    in its notch, and the draws 1/2, 1/2: the hypotheses hold, and the answers are True and False. *)
Lemma ray_example : forall L : Libm,
  let ds := [(0, 0, 1000, 0); (1000, 1000, 1000, 0); (0, 500, 500, 500); (500, 500, 500, 1000); (500, 1000, 1000, 1000); (0, 0, 0, 500)]%Z in
  let l := map (fun '(a, b, c, d) => LineSegment (Point_new (nofZ a) (nofZ b)) (Point_new (nofZ c) (nofZ d)) : seg (FA L)) ds in
  let l' := map (fun '(a, b, c, d) => LineSegment (@mkpt RA (IZR a) (IZR b)) (@mkpt RA (IZR c) (IZR d))) ds in
  let vs := map (fun '(a, b) => @mkpt RA (IZR a) (IZR b)) [(0, 0); (1000, 0); (1000, 1000); (500, 1000); (500, 500); (0, 500)]%Z in
  let p := Point_new (A := FA L) (nofZ 700) (nofZ 700) in let q := Point_new (A := FA L) (nofZ 200) (nofZ 800) in
  let p' := @mkpt RA 700 700 in let q' := @mkpt RA 200 800 in let d := (Fdec 1 2, Fdec 1 2) in
  exact_segs l l' /\ Forall whole_seg l' /\ polygon_of vs l' /\ NoDup l' /\ exact_pt p p' /\ lattice 2000 p' /\ exact_pt q q' /\ lattice 2000 q' /\
  (forall s, In s l' -> ~ on_segment (si s) (sj s) p') /\ (forall s, In s l' -> ~ on_segment (si s) (sj s) q') /\
  drawn d /\ clears vs p' (target 1000 1000 d) /\ clears vs q' (target 1000 1000 d) /\
  poly_is_internal_point l p (fun _ => d) 1 = Ok (Some true) /\ poly_is_internal_point l q (fun _ => d) 1 = Ok (Some false).
Proof.
  intros L ds l l' vs p q p' q' d.
  assert (IP : forall a b, (Z.abs a <= 2000)%Z -> (Z.abs b <= 2000)%Z -> exact_pt (Point_new (A := FA L) (nofZ a) (nofZ b)) (@mkpt RA (IZR a) (IZR b)) /\ lattice 2000 (@mkpt RA (IZR a) (IZR b))) by apply PWholeLoops.int_point.
  assert (H1 : exact_segs l l' /\ Forall whole_seg l').
  { apply PWholeLoops.segments_whole. unfold ds. repeat constructor; cbv; discriminate. }
  destruct H1 as [H1 H2].
  assert (H3 : polygon_of vs l').
  { exists (map (fun '(a, b, c, d) => LineSegment (@mkpt RA (IZR a) (IZR b)) (@mkpt RA (IZR c) (IZR d))) [(0, 0, 1000, 0); (1000, 1000, 1000, 0); (500, 1000, 1000, 1000); (500, 500, 500, 1000); (0, 500, 500, 500); (0, 0, 0, 500)]%Z). split.
    - apply Permutation_map. apply perm_skip, perm_skip. eapply perm_trans; [apply perm_swap|]. eapply perm_trans; [apply perm_skip; apply perm_swap|]. apply perm_swap.
    - unfold vs. cbn. repeat constructor; (left; split; reflexivity) || (right; split; reflexivity). }
  assert (H4 : NoDup l').
  { unfold l', ds. cbn [map]. repeat constructor; cbn [In]; intros K; repeat destruct K as [K|K]; try exact K; injection K; intros; lra. }
  destruct (IP 700%Z 700%Z ltac:(lia) ltac:(lia)) as [H5 H6]. destruct (IP 200%Z 800%Z ltac:(lia) ltac:(lia)) as [H7 H8].
  assert (H9 : (forall s, In s l' -> ~ on_segment (si s) (sj s) p') /\ (forall s, In s l' -> ~ on_segment (si s) (sj s) q')).
  { split; intros s I (t & T & E); unfold l', ds in I; cbn [map In] in I; repeat destruct I as [<-|I]; try destruct I; cbn in E; injection E; intros; ra_simpl; lra. }
  destruct H9 as [H9 H10].
  assert (V : exactly (Fdec 1 2) (1 / 2)) by edec. destruct V as [V1 V2].
  assert (H11 : drawn d) by (unfold drawn, d; cbn [fst snd]; rewrite V2; repeat split; try exact V1; lra).
  assert (T : target 1000 1000 d = @mkpt RA 250500 15500) by (unfold target, d; cbn [fst snd]; rewrite V2; f_equal; lra).
  assert (CL : forall u, u = p' \/ u = q' -> clears vs u (target 1000 1000 d)).
  { intros u U. rewrite T. destruct U as [-> | ->]; unfold clears, p', q', vs; cbn [px py]; (split; [lra|]); (split; [unfold Rabs; destruct (Rcase_abs _); lra|]); (split; [lra|]); repeat split.
    all: try (intros v I; cbn [map In] in I; repeat destruct I as [<-|I]; try destruct I; cbn [px py]; try lra; unfold orient; cbn [px py]; unfold Rabs; destruct (Rcase_abs _); lra).
    all: intros a b I; cbn in I; repeat destruct I as [I|I]; try contradiction; injection I; intros; subst; unfold orient; cbn [px py]; unfold Rabs; destruct (Rcase_abs _); lra. }
  assert (EO : even_odd vs p' = true /\ even_odd vs q' = false).
  { unfold even_odd, vs, p', q'. cbn [map cycle_edges combine app fst snd filter]. unfold right_of_row. cbn [px py]. split; repeat (match goal with |- context [Rle_lt_dec ?a ?b] => destruct (Rle_lt_dec a b); try lra | |- context [Rlt_dec ?a ?b] => destruct (Rlt_dec a b) as [K|K]; unfold orient in K; cbn [px py] in K; try lra; clear K end; cbn [filter]); reflexivity. }
  destruct EO as [EO1 EO2].
  assert (XM : forall f : pt RA -> R, (f = px \/ f = py) -> (exists v, In v vs /\ f v = 1000) /\ (forall v, In v vs -> f v <= 1000)).
  { intros f F. split; [exists (@mkpt RA 1000 1000); split; [right; right; left; reflexivity|destruct F as [-> | ->]; reflexivity]|]. intros v I. unfold vs in I. cbn [map In] in I. destruct F as [-> | ->]; repeat destruct I as [<-|I]; try destruct I; cbn [px py]; lra. }
  destruct (XM px (or_introl eq_refl)) as [X1 X2]. destruct (XM py (or_intror eq_refl)) as [Y1 Y2]. assert (NE : vs <> []) by discriminate.
  pose proof (internal_double L vs l l' p p' 1000 1000 (fun _ => d) (fun _ => d) 0 H1 H2 H3 H4 NE H5 H6 H9 X1 X2 Y1 Y2 (fun _ _ => conj H11 (CL p' (or_introl eq_refl))) (fun _ _ => conj H11 (CL p' (or_introl eq_refl)))) as (G1 & _).
  pose proof (internal_double L vs l l' q q' 1000 1000 (fun _ => d) (fun _ => d) 0 H1 H2 H3 H4 NE H7 H8 H10 X1 X2 Y1 Y2 (fun _ _ => conj H11 (CL q' (or_intror eq_refl))) (fun _ _ => conj H11 (CL q' (or_intror eq_refl)))) as (G2 & _).
  rewrite EO1 in G1. rewrite EO2 in G2. repeat (split; [first [assumption|apply CL; auto]|]). assumption.
Qed.
