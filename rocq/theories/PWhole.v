(** Binary64 on whole coordinates up to 2000: crossings, validity, convexity and orientation. *)
From Coq Require Import ZArith Reals Lra Lia Bool List Permutation Arith Floats.SpecFloat.
From Flocq Require Import Core BinarySingleNaN Relative.
From Verif Require Import Base Arith ArithR ArithF MPoint MLine MPoly MHeap Spec SpecHeap SpecDouble PPoint PLine PTrig PCommon PShape PConvex POrder PHull PFlocq PHeap PDouble PExact.
Import ListNotations.
Local Open Scope R_scope.
#[local] Existing Instance RA.
#[local] Existing Instance P53.
#[local] Existing Instance P1024.

(** * Whole numbers *)
Definition wh (k : Z) (x : F) (u : R) : Prop := ex 0 k x /\ u = IZR k.
Lemma ex0 : forall k x, ex 0 k x -> double x /\ value x = IZR k.
Proof. intros k x [D V]. split; [exact D|]. rewrite V. simpl. lra. Qed.
Lemma ex0_intro : forall k x, double x -> value x = IZR k -> ex 0 k x.
Proof. intros k x D V. split; [exact D|]. rewrite V. simpl. lra. Qed.
Lemma wh_sub : forall a b x y u v, wh a x u -> wh b y v -> (Z.abs (a - b) < 2 ^ 53)%Z -> wh (a - b) (Fsub x y) (u - v).
Proof. intros a b x y u v [E ->] [F ->] K. split; [apply ex_sub; auto; lia|]. rewrite minus_IZR. reflexivity. Qed.
Lemma wh_add : forall a b x y u v, wh a x u -> wh b y v -> (Z.abs (a + b) < 2 ^ 53)%Z -> wh (a + b) (Fadd x y) (u + v).
Proof. intros a b x y u v [E ->] [F ->] K. split; [apply ex_add; auto; lia|]. rewrite plus_IZR. reflexivity. Qed.
Lemma wh_mul : forall a b x y u v, wh a x u -> wh b y v -> (Z.abs (a * b) < 2 ^ 53)%Z -> wh (a * b) (Fmul x y) (u * v).
Proof. intros a b x y u v [E ->] [F ->] K. split; [apply (ex_mul 0 0); auto; lia|]. rewrite mult_IZR. reflexivity. Qed.
Lemma wh_on : forall k x u, wh k x u -> on 0 x u.
Proof. intros k x u [E ->]. exists k. split; [exact E|]. simpl. lra. Qed.

(** * The rounded quotient of two whole numbers *)
Definition fair (x : F) (q : R) : Prop := double x /\ Rabs (value x - q) <= 51 / 10 ^ 10 + Rabs q / 2 ^ 51.
Lemma rnd_rel : forall z, Rabs (nearest z - z) <= Rabs z / 2 ^ 53 + / 2 ^ 100.
Proof.
  intros z. destruct (error_N_FLT radix2 (-1074) 53 ltac:(lia) (fun n => negb (Z.even n)) z) as (e & f & He & Hf & _ & E). unfold nearest. rewrite E.
  replace (z * (1 + e) + f - z) with (z * e + f) by ring. eapply Rle_trans; [apply Rabs_triang|]. rewrite Rabs_mult. apply Rplus_le_compat.
  - unfold Rdiv. apply Rmult_le_compat_l; [apply Rabs_pos|]. eapply Rle_trans; [exact He|]. simpl. lra.
  - eapply Rle_trans; [exact Hf|]. apply Rle_trans with (/ 2 * bpow radix2 (-100)); [apply Rmult_le_compat_l; [lra|apply bpow_le; lia]|]. simpl. lra.
Qed.
Lemma quot : forall n d x y, ex 0 n x -> ex 0 d y -> d <> 0%Z -> (Z.abs n <= 2 ^ 40)%Z -> fair (Fround8 (Fdiv x y)) (IZR n / IZR d).
Proof.
  intros n d x y Ex Ey D N. destruct (ex0 _ _ Ex) as [Dx Vx]. destruct (ex0 _ _ Ey) as [Dy Vy].
  assert (Dn : IZR d <> 0) by (apply IZR_neq; exact D). set (q := IZR n / IZR d).
  assert (Bq : Rabs q <= 2 ^ 40).
  { unfold q, Rdiv. rewrite Rabs_mult, Rabs_inv, <- !abs_IZR. apply IZR_le in N. change (2 ^ 40)%Z with 1099511627776%Z in N.
    assert (H1 : 1 <= IZR (Z.abs d)) by (apply IZR_le; lia). apply Rle_trans with (IZR (Z.abs n) * 1); [|lra]. apply Rmult_le_compat_l; [apply IZR_le; lia|]. rewrite <- Rinv_1. apply Rinv_le_contravar; lra. }
  destruct (fdiv x y Dx Dy) as [F1 F2]; [rewrite Vy; exact Dn|rewrite Vx, Vy; fold q; replace (bpow radix2 60) with 1152921504606846976 by reflexivity; lra|].
  rewrite Vx, Vy in F2. fold q in F2. pose proof (rnd_rel q) as R1. rewrite <- F2 in R1. set (w := Fdiv x y) in *. clearbody w.
  destruct (fround8 w F1) as [G1 G2]. split; [exact G1|]. set (v := value (Fround8 w)) in *. set (z := IZR (ZnearestE (value w * 10 ^ 8)) / 10 ^ 8) in *.
  assert (R2 : Rabs (z - value w) <= 5 / 10 ^ 9).
  { pose proof (Znearest_half (fun n => negb (Z.even n)) (value w * 10 ^ 8)) as H. unfold z. replace (IZR (ZnearestE (value w * 10 ^ 8)) / 10 ^ 8 - value w) with (- (value w * 10 ^ 8 - IZR (ZnearestE (value w * 10 ^ 8))) * / 10 ^ 8) by field.
    rewrite Rabs_mult, Rabs_Ropp, (Rabs_pos_eq (/ 10 ^ 8)) by (left; apply Rinv_0_lt_compat; lra). lra. }
  pose proof (rnd_rel z) as R3. rewrite <- G2 in R3. clear - R1 R2 R3.
  assert (Z : Rabs z <= Rabs q + (Rabs (z - value w) + Rabs (value w - q))).
  { replace z with (q + ((z - value w) + (value w - q))) at 1 by ring. eapply Rle_trans; [apply Rabs_triang|]. apply Rplus_le_compat_l. apply Rabs_triang. }
  replace (v - q) with ((v - z) + ((z - value w) + (value w - q))) by ring. eapply Rle_trans; [apply Rabs_triang|]. 
  assert (T : Rabs (z - value w + (value w - q)) <= Rabs (z - value w) + Rabs (value w - q)) by apply Rabs_triang. pose proof (Rabs_pos q). lra.
Qed.

(** * The exact point and the box of a segment *)
Lemma fair_cmp : forall L m x v nx d, exactly x (IZR m) -> (Z.abs m <= 2000)%Z -> fair v (IZR nx / IZR d) -> (0 < Z.abs d <= 32000000)%Z -> (Z.abs nx <= 2 ^ 40)%Z ->
  let q := IZR nx / IZR d in
  SFltb (Fsub x (EPS (A := FA L))) v = Rltb (IZR m - 1 / 10 ^ 8) (Rround8 q) /\
  SFleb (Fsub x (EPS (A := FA L))) v = Rleb (IZR m - 1 / 10 ^ 8) (Rround8 q) /\
  SFleb v (Fadd x (EPS (A := FA L))) = Rleb (Rround8 q) (IZR m + 1 / 10 ^ 8).
Proof.
  intros L m x v nx d [Dx Vx] Bm [Dv Vv] Dd Bn q. fold q in Vv. destruct (eps_double L) as [ED EV]. set (e := EPS (A := FA L)) in *. clearbody e.
  assert (Bu : Rabs (IZR m) <= 2000) by (rewrite <- abs_IZR; apply IZR_le; exact Bm). apply Rabs_le_inv in Bu.
  assert (B1 : Rabs (value x - value e) <= 4194304) by (rewrite Vx; apply Rabs_le; lra).
  assert (B2 : Rabs (value x + value e) <= 4194304) by (rewrite Vx; apply Rabs_le; lra).
  destruct (fsub x e Dx ED (big _ B1)) as [S1 S2]. destruct (fadd x e Dx ED (big _ B2)) as [A1 A2]. pose proof (rnd_err _ B1) as Q1. pose proof (rnd_err _ B2) as Q2. rewrite <- S2 in Q1. rewrite <- A2 in Q2.
  rewrite fltb, !fleb by auto. rewrite Vx in Q1, Q2. unfold eps in *. apply Rabs_le_inv in Q1, Q2.
  pose proof (frac_gap nx d m Dd) as G1. pose proof (frac_gap_up nx d m Dd) as G2. fold q in G1, G2.
  assert (Bq : Rabs q <= 2 ^ 40).
  { unfold q, Rdiv. rewrite Rabs_mult, Rabs_inv, <- !abs_IZR. apply IZR_le in Bn. change (2 ^ 40)%Z with 1099511627776%Z in Bn.
    assert (H1 : 1 <= IZR (Z.abs d)) by (apply IZR_le; lia). apply Rle_trans with (IZR (Z.abs nx) * 1); [|lra]. apply Rmult_le_compat_l; [apply IZR_le; lia|]. rewrite <- Rinv_1. apply Rinv_le_contravar; lra. }
  pose proof (Rround8_err q) as RE. apply Rabs_le_inv in RE.
  set (a := value (Fsub x e)) in *. set (b := value (Fadd x e)) in *. set (w := value v) in *. set (r := Rround8 q) in *. clearbody a b w r q. clear S1 S2 A1 A2 B1 B2 Dx Dv Vx ED.
  assert (W : Rabs q <= 4000 /\ Rabs (w - q) <= 6 / 10 ^ 9 \/ 4000 < Rabs q /\ Rabs (w - q) <= 1).
  { destruct (Rle_lt_dec (Rabs q) 4000); [left|right]; split; auto; lra. }
  assert (C1 : (IZR m <= q -> a < w /\ IZR m - 1 / 10 ^ 8 < r) /\ (q < IZR m -> w < a /\ r < IZR m - 1 / 10 ^ 8)).
  { split; intros H.
    - split; [|lra]. destruct W as [[W1 W2]|[W1 W2]]; apply Rabs_le_inv in W2; [lra|]. unfold Rabs in W1. destruct (Rcase_abs q); lra.
    - assert (q <= IZR m - 2 / 100000000) by (apply Rnot_lt_le; intros K; specialize (G1 K); lra). split; [|lra].
      destruct W as [[W1 W2]|[W1 W2]]; apply Rabs_le_inv in W2; [lra|]. unfold Rabs in W1. destruct (Rcase_abs q); lra. }
  assert (C2 : (q <= IZR m -> w < b /\ r < IZR m + 1 / 10 ^ 8) /\ (IZR m < q -> b < w /\ IZR m + 1 / 10 ^ 8 < r)).
  { split; intros H.
    - split; [|lra]. destruct W as [[W1 W2]|[W1 W2]]; apply Rabs_le_inv in W2; [lra|]. unfold Rabs in W1. destruct (Rcase_abs q); lra.
    - assert (IZR m + 2 / 100000000 <= q) by (apply Rnot_lt_le; intros K; specialize (G2 K); lra). split; [|lra].
      destruct W as [[W1 W2]|[W1 W2]]; apply Rabs_le_inv in W2; [lra|]. unfold Rabs in W1. destruct (Rcase_abs q); lra. }
  clear G1 G2 W. destruct C1 as [C1 C1']. destruct C2 as [C2 C2']. unfold Rltb, Rleb. repeat split.
  - destruct (Rle_lt_dec (IZR m) q) as [H|H]; [destruct (C1 H)|destruct (C1' H)]; destruct (Rlt_dec _ _); try lra; (apply Rlt_bool_true || apply Rlt_bool_false); lra.
  - destruct (Rle_lt_dec (IZR m) q) as [H|H]; [destruct (C1 H)|destruct (C1' H)]; destruct (Rle_dec _ _); try lra; (apply Rle_bool_true || apply Rle_bool_false); lra.
  - destruct (Rle_lt_dec q (IZR m)) as [H|H]; [destruct (C2 H)|destruct (C2' H)]; destruct (Rle_dec _ _); try lra; (apply Rle_bool_true || apply Rle_bool_false); lra.
Qed.

(** * Points and segments on the integer grid *)
Definition wpt L (p : pt (FA L)) (q : pt RA) : Prop := exact_pt p q /\ lattice 2000 q.
Definition wseg L (s : seg (FA L)) (t : seg RA) : Prop := sc s = sc t /\ wpt L (si s) (si t) /\ wpt L (sj s) (sj t).
Lemma lattice_dyadic : forall q, lattice 2000 q -> dyadic_pt q.
Proof. intros q (a & b & X & Y & A & B). split; [exists (a * 256)%Z|exists (b * 256)%Z]; (split; [lia|]); rewrite ?X, ?Y, mult_IZR; lra. Qed.
Lemma wpt_ept : forall L p q, wpt L p q -> ept L p q.
Proof. intros L p q [E H]. split; [exact E|apply lattice_dyadic; exact H]. Qed.
Lemma wseg_eseg : forall L s t, wseg L s t -> eseg L s t.
Proof. intros L s t (C & H1 & H2). apply eseg_make; auto; apply wpt_ept; auto. Qed.
Lemma wpt_wh : forall L p q, wpt L p q -> exists a b, wh a (px p) (px q) /\ wh b (py p) (py q) /\ (Z.abs a <= 2000)%Z /\ (Z.abs b <= 2000)%Z.
Proof.
  intros L p q [[[D1 V1] [D2 V2]] (a & b & X & Y & A & B)]. exists a, b. split; [split; [apply ex0_intro; auto; rewrite V1; exact X|exact X]|]. split; [split; [apply ex0_intro; auto; rewrite V2; exact Y|exact Y]|auto].
Qed.
Lemma abs_mul_le : forall a b M N : Z, (Z.abs a <= M -> Z.abs b <= N -> Z.abs (a * b) <= M * N)%Z.
Proof. intros a b M N A B. rewrite Z.abs_mul. apply Z.mul_le_mono_nonneg; try apply Z.abs_nonneg; assumption. Qed.
Lemma wh_eqb0 : forall L k x u, wh k x u -> neqb (Arith := FA L) x n0 = neqb (Arith := RA) u n0.
Proof. intros L k x u W. apply (on_eqb 0 _ _ _ _ (wh_on _ _ _ W) (on_zero 0)). Qed.
(** With a bound. *)
Definition wb (M k : Z) (x : F) (u : R) : Prop := wh k x u /\ (Z.abs k <= M)%Z.
Lemma wb_sub : forall M N a b x y u v, wb M a x u -> wb N b y v -> (M + N < 2 ^ 53)%Z -> wb (M + N) (a - b) (Fsub x y) (u - v).
Proof. intros M N a b x y u v [A A'] [B B'] K. split; [apply wh_sub; auto|]; clear A B; lia. Qed.
Lemma wb_mul : forall M N a b x y u v, wb M a x u -> wb N b y v -> (M * N < 2 ^ 53)%Z -> wb (M * N) (a * b) (Fmul x y) (u * v).
Proof. intros M N a b x y u v [A A'] [B B'] K. pose proof (abs_mul_le a b M N A' B') as E. split; [apply wh_mul; auto|exact E]. clear A B; lia. Qed.
Ltac wbs := match goal with
  | |- wb _ _ (Fsub _ _) _ => eapply wb_sub; [wbs|wbs|reflexivity]
  | |- wb _ _ (Fmul _ _) _ => eapply wb_mul; [wbs|wbs|reflexivity]
  | |- _ => eassumption
  end.
Lemma wpt_wb : forall L p q, wpt L p q -> exists a b, wb 2000 a (px p) (px q) /\ wb 2000 b (py p) (py q).
Proof. intros L p q W. destruct (wpt_wh L p q W) as (a & b & A & B & A' & B'). exists a, b. split; split; auto. Qed.
Lemma cross_wh : forall L s t u v, wseg L s u -> wseg L t v -> exists k, wh k (crossproduct s t) (crossproduct (A := RA) u v) /\ (Z.abs k <= 32000000)%Z.
Proof.
  intros L [c1 i j] [c2 k l] [c1' i' j'] [c2' k' l'] (_ & E1 & E2) (_ & E3 & E4). simpl in *.
  destruct (wpt_wb _ _ _ E1) as (a1 & b1 & A1 & B1). destruct (wpt_wb _ _ _ E2) as (a2 & b2 & A2 & B2).
  destruct (wpt_wb _ _ _ E3) as (a3 & b3 & A3 & B3). destruct (wpt_wb _ _ _ E4) as (a4 & b4 & A4 & B4). clear E1 E2 E3 E4.
  assert (W : wb ((2000 + 2000) * (2000 + 2000) + (2000 + 2000) * (2000 + 2000)) ((a2 - a1) * (b4 - b3) - (b2 - b1) * (a4 - a3))
    (Fsub (Fmul (Fsub (px j) (px i)) (Fsub (py l) (py k))) (Fmul (Fsub (py j) (py i)) (Fsub (px l) (px k))))
    ((px j' - px i') * (py l' - py k') - (py j' - py i') * (px l' - px k'))) by wbs.
  destruct W as [W B]. eexists. split; [exact W|exact B].
Qed.
Lemma parallel_wh : forall L s t u v, wseg L s u -> wseg L t v -> is_parallel s t = is_parallel (A := RA) u v.
Proof. intros L s t u v Hs Ht. destruct (cross_wh L s t u v Hs Ht) as (k & W & _). unfold is_parallel. rewrite (wh_eqb0 L k _ _ W). reflexivity. Qed.

(** The intersection point of the program is within the rounding errors of the exact one. *)
Lemma ip_double : forall L s t u v, wseg L s u -> wseg L t v -> crossproduct (A := RA) u v <> 0 ->
  exists x y nx ny d, intersection_point s t = Ok (Some (@mkpt (FA L) x y)) /\ (0 < Z.abs d <= 32000000)%Z /\ (Z.abs nx <= 2 ^ 40)%Z /\ (Z.abs ny <= 2 ^ 40)%Z /\
    ip_x u v = IZR nx / IZR d /\ ip_y u v = IZR ny / IZR d /\ fair x (IZR nx / IZR d) /\ fair y (IZR ny / IZR d).
Proof.
  intros L s t u v Hs Ht N. assert (PA : is_parallel s t = false) by (rewrite (parallel_wh L s t u v Hs Ht); apply is_parallel_false; exact N).
  unfold intersection_point. rewrite PA. cbv zeta. unfold ip_x, ip_y. rewrite crossproduct_R in *.
  destruct Hs as (_ & E1 & E2). destruct Ht as (_ & E3 & E4). destruct s as [c1 [x1 y1] [x2 y2]]. destruct t as [c2 [x3 y3] [x4 y4]]. destruct u as [c3 [u1 v1] [u2 v2]]. destruct v as [c4 [u3 v3] [u4 v4]]. cbn [si sj px py] in *.
  destruct (wpt_wb _ _ _ E1) as (a1 & b1 & A1 & B1). destruct (wpt_wb _ _ _ E2) as (a2 & b2 & A2 & B2).
  destruct (wpt_wb _ _ _ E3) as (a3 & b3 & A3 & B3). destruct (wpt_wb _ _ _ E4) as (a4 & b4 & A4 & B4). cbn [px py] in *. clear E1 E2 E3 E4 PA.
  assert (NX : exists M, (M <= 2 ^ 40)%Z /\ wb M ((a1 * b2 - b1 * a2) * (a3 - a4) - (a1 - a2) * (a3 * b4 - b3 * a4))
    (Fsub (Fmul (Fsub (Fmul x1 y2) (Fmul y1 x2)) (Fsub x3 x4)) (Fmul (Fsub x1 x2) (Fsub (Fmul x3 y4) (Fmul y3 x4)))) ((u1 * v2 - v1 * u2) * (u3 - u4) - (u1 - u2) * (u3 * v4 - v3 * u4))) by (eexists; split; [|wbs]; cbv; discriminate).
  assert (NY : exists M, (M <= 2 ^ 40)%Z /\ wb M ((a1 * b2 - b1 * a2) * (b3 - b4) - (b1 - b2) * (a3 * b4 - b3 * a4))
    (Fsub (Fmul (Fsub (Fmul x1 y2) (Fmul y1 x2)) (Fsub y3 y4)) (Fmul (Fsub y1 y2) (Fsub (Fmul x3 y4) (Fmul y3 x4)))) ((u1 * v2 - v1 * u2) * (v3 - v4) - (v1 - v2) * (u3 * v4 - v3 * u4))) by (eexists; split; [|wbs]; cbv; discriminate).
  assert (DE : exists M, (M <= 32000000)%Z /\ wb M ((a1 - a2) * (b3 - b4) - (b1 - b2) * (a3 - a4))
    (Fsub (Fmul (Fsub x1 x2) (Fsub y3 y4)) (Fmul (Fsub y1 y2) (Fsub x3 x4))) ((u1 - u2) * (v3 - v4) - (v1 - v2) * (u3 - u4))) by (eexists; split; [|wbs]; cbv; discriminate).
  clear A1 A2 A3 A4 B1 B2 B3 B4. destruct NX as (MX & LX & NX & BX). destruct NY as (MY & LY & NY & BY). destruct DE as (MD & LD & DE & BD).
  set (nx := ((a1 * b2 - b1 * a2) * (a3 - a4) - (a1 - a2) * (a3 * b4 - b3 * a4))%Z) in *. set (ny := ((a1 * b2 - b1 * a2) * (b3 - b4) - (b1 - b2) * (a3 * b4 - b3 * a4))%Z) in *. set (d := ((a1 - a2) * (b3 - b4) - (b1 - b2) * (a3 - a4))%Z) in *.
  assert (ED : (u2 - u1) * (v4 - v3) - (v2 - v1) * (u4 - u3) = IZR d) by (destruct DE as [_ DE]; rewrite <- DE; ring).
  assert (Dz : d <> 0%Z) by (intros Z; apply N; rewrite ED, Z; reflexivity). rewrite ED.
  pose proof (wh_eqb0 L d _ _ DE) as Z0.
  match type of Z0 with neqb ?a _ = _ => change (nsub (Arith := FA L) (nmul (Arith := FA L) (nsub (Arith := FA L) x1 x2) (nsub (Arith := FA L) y3 y4)) (nmul (Arith := FA L) (nsub (Arith := FA L) y1 y2) (nsub (Arith := FA L) x3 x4))) with a; set (den := a) in * end.
  assert (Z1 : neqb (Arith := FA L) den n0 = false).
  { rewrite Z0. destruct DE as [_ ->]. change (Reqb (IZR d) 0 = false). unfold Reqb. destruct (Req_EM_T (IZR d) 0) as [E|]; [exfalso; apply Dz; apply eq_IZR; exact E|reflexivity]. }
  unfold pdiv. rewrite Z1. cbn [bind]. eexists _, _, nx, ny, d. split; [reflexivity|].
  clearbody nx ny d. split; [clear - Dz BD LD; lia|]. split; [clear - BX LX; lia|]. split; [clear - BY LY; lia|].
  split; [destruct NX as [_ <-]; reflexivity|]. split; [destruct NY as [_ <-]; reflexivity|].
  split; [apply (quot nx d _ _ (proj1 NX) (proj1 DE) Dz); clear - BX LX; lia|apply (quot ny d _ _ (proj1 NY) (proj1 DE) Dz); clear - BY LY; lia].
Qed.
Lemma minmax_wh : forall L a b x y u v, exactly x u -> exactly y v -> u = IZR a -> v = IZR b -> (Z.abs a <= 2000)%Z -> (Z.abs b <= 2000)%Z ->
  exists m n, exactly (nmin (A := FA L) x y) (IZR m) /\ exactly (nmax (A := FA L) x y) (IZR n) /\ nmin (A := RA) u v = IZR m /\ nmax (A := RA) u v = IZR n /\ (Z.abs m <= 2000)%Z /\ (Z.abs n <= 2000)%Z.
Proof.
  intros L a b x y u v E F -> -> A B. unfold nmin, nmax, pymin2, pymax2.
  pose proof (exactly_ltb y x _ _ F E) as H1. pose proof (exactly_ltb x y _ _ E F) as H2.
  change (@nltb (FA L) y x) with (SFltb y x). change (@nltb (FA L) x y) with (SFltb x y). rewrite H1, H2. change (@nltb RA (IZR b) (IZR a)) with (Rltb (IZR b) (IZR a)). change (@nltb RA (IZR a) (IZR b)) with (Rltb (IZR a) (IZR b)).
  destruct (Rltb (IZR b) (IZR a)), (Rltb (IZR a) (IZR b)); eexists _, _; repeat split; eauto; (apply E || apply F).
Qed.
Lemma internal_wh : forall L s u x y nx ny d, wseg L s u -> (0 < Z.abs d <= 32000000)%Z -> (Z.abs nx <= 2 ^ 40)%Z -> (Z.abs ny <= 2 ^ 40)%Z -> fair x (IZR nx / IZR d) -> fair y (IZR ny / IZR d) ->
  ls_is_internal_point s (@mkpt (FA L) x y) = ls_is_internal_point (A := RA) u (Point_new (A := RA) (IZR nx / IZR d) (IZR ny / IZR d)).
Proof.
  intros L s u x y nx ny d (_ & [[E1 E2] (a & b & Xa & Yb & Ha & Hb)] & [[F1 F2] (a' & b' & Xa' & Yb' & Ha' & Hb')]) D Bx By Fx Fy. unfold ls_is_internal_point.
  destruct (minmax_wh L _ _ _ _ _ _ E1 F1 Xa Xa' Ha Ha') as (m1 & n1 & X1 & X2 & X3 & X4 & X5 & X6). destruct (minmax_wh L _ _ _ _ _ _ E2 F2 Yb Yb' Hb Hb') as (m2 & n2 & Y1 & Y2 & Y3 & Y4 & Y5 & Y6).
  pose proof (fair_cmp L _ _ _ _ _ X1 X5 Fx D Bx) as (H1 & _ & _). pose proof (fair_cmp L _ _ _ _ _ X2 X6 Fx D Bx) as (_ & _ & H2).
  pose proof (fair_cmp L _ _ _ _ _ Y1 Y5 Fy D By) as (_ & H3 & _). pose proof (fair_cmp L _ _ _ _ _ Y2 Y6 Fy D By) as (_ & _ & H4).
  rewrite <- eps_R in H1, H2, H3, H4. cbv zeta. rewrite X3, X4, Y3, Y4.
  assert (Z : forall a a' b b' c c' d d' : bool, a = a' -> b = b' -> c = c' -> d = d' -> (a && b && (c && d)) = (a' && b' && (c' && d'))) by (intros; subst; reflexivity).
  apply Z; assumption.
Qed.
Lemma ios_wh : forall L s t u v, wseg L s u -> wseg L t v -> intersection_on_segment s t = intersection_on_segment (A := RA) u v.
Proof.
  intros L s t u v Hs Ht. unfold intersection_on_segment. rewrite (proj1 (eseg_touch L _ _ _ _ (wseg_eseg _ _ _ Hs) (wseg_eseg _ _ _ Ht))). destruct (touch u v); [reflexivity|].
  destruct (is_parallel u v) eqn:PA.
  - unfold intersection_point. rewrite (parallel_wh L s t u v Hs Ht), PA. reflexivity.
  - pose proof (proj1 (is_parallel_false u v) PA) as N. destruct (ip_double L s t u v Hs Ht N) as (x & y & nx & ny & d & E & D & Bx & By & X & Y & Fx & Fy). rewrite E, (intersection_point_R u v N). cbn [bind].
    rewrite X, Y, (internal_wh L s u x y nx ny d), (internal_wh L t v x y nx ny d) by auto. reflexivity.
Qed.

(** * Polygons *)
Definition wpoly L (l : list (seg (FA L))) (l' : list (seg RA)) : Prop := Forall2 (wseg L) l l'.
Lemma wpoly_epoly : forall L l l', wpoly L l l' -> epoly L l l'.
Proof. intros L l l' W. induction W; constructor; auto. apply wseg_eseg. assumption. Qed.
Lemma others_rel : forall {X Y} (Q : X -> Y -> Prop) l l' p p', Forall2 Q p p' -> Forall2 Q l l' -> Forall2 (fun a b => Q (fst a) (fst b) /\ Forall2 Q (snd a) (snd b)) (others p l) (others p' l').
Proof. intros X Y Q l l' p p' P H. revert p p' P. induction H; intros p p' P; simpl; constructor; [split; [assumption|apply Forall2_app; [apply rel_rev; exact P|assumption]]|]. apply IHForall2. constructor; auto. Qed.
Lemma perm2_rel : forall {X Y} (Q : X -> Y -> Prop) l l', Forall2 Q l l' -> Forall2 (fun a b => Q (fst a) (fst b) /\ Q (snd a) (snd b)) (permutations2 l) (permutations2 l').
Proof.
  intros X Y Q l l' H. unfold permutations2. pose proof (others_rel Q l l' [] [] (Forall2_nil _) H) as O. induction O as [|[x r] [y r'] o o' [H1 H2] _ IH]; [constructor|]. simpl in *. apply Forall2_app; [|exact IH].
  clear - H1 H2. induction H2; simpl; constructor; auto.
Qed.
Lemma filterM_rel : forall {X Y} (Q : X -> Y -> Prop) (f : X -> res bool) (g : Y -> res bool) l l', Forall2 Q l l' -> (forall x y, Q x y -> f x = g y) ->
  match filterM f l, filterM g l' with Ok r, Ok r' => Forall2 Q r r' | Err e, Err e' => e = e' | _, _ => False end.
Proof.
  intros X Y Q f g l l' H E. induction H as [|x y l l' Q1 _ IH]; simpl; [constructor|]. rewrite (E x y Q1). destruct (g y) as [b|]; simpl; [|reflexivity].
  destruct (filterM f l), (filterM g l'); simpl; auto; destruct b; auto.
Qed.
Lemma crossing_wh : forall L l l', wpoly L l l' -> match crossing_lines l, crossing_lines (A := RA) l' with Ok r, Ok r' => Forall2 (fun a b => wseg L (fst a) (fst b) /\ wseg L (snd a) (snd b)) r r' | Err e, Err e' => e = e' | _, _ => False end.
Proof.
  intros L l l' W. unfold crossing_lines. apply filterM_rel; [apply perm2_rel; exact W|]. intros [x y] [x' y'] [H1 H2]. apply (ios_wh L); auto.
Qed.
Lemma valid_wh : forall L l l', wpoly L l l' -> poly_isvalid l = poly_isvalid (A := RA) l'.
Proof.
  intros L l l' W. unfold poly_isvalid. rewrite (epoly_continuous L l l' (wpoly_epoly L l l' W)), (rel_length (wseg L) _ _ W). destruct (negb (iscontinuous l')); [reflexivity|]. destruct (Nat.ltb (length l') 1); [reflexivity|].
  pose proof (crossing_wh L l l' W) as C. destruct (crossing_lines l) as [r|], (crossing_lines l') as [r'|]; simpl; try contradiction; [|congruence]. destruct C; reflexivity.
Qed.
Definition wnum (x : F) (u : R) : Prop := exists k, wh k x u /\ (Z.abs k <= 32000000)%Z.
Lemma combine_rel : forall {X Y X' Y'} (Q : X -> Y -> Prop) (Q' : X' -> Y' -> Prop) l l' m m', Forall2 Q l l' -> Forall2 Q' m m' -> Forall2 (fun a b => Q (fst a) (fst b) /\ Q' (snd a) (snd b)) (combine l m) (combine l' m').
Proof. intros X Y X' Y' Q Q' l l' m m' H. revert m m'. induction H; intros m m' K; [constructor|]. destruct K; constructor; auto. Qed.
Lemma cps_wh : forall L l l', wpoly L l l' -> match cps l, cps (A := RA) l' with Ok r, Ok r' => Forall2 wnum r r' /\ length r' = length l' | Err e, Err e' => e = e' | _, _ => False end.
Proof.
  intros L l l' W. unfold cps. destruct W as [|s t l l' H W]; [reflexivity|]. cbn [get nth_error bind tl]. split.
  - apply (rel_map (fun a b => wseg L (fst a) (fst b) /\ wseg L (snd a) (snd b))); [|intros [x y] [x' y'] [H1 H2]; apply (cross_wh L); auto].
    apply combine_rel; [constructor; auto|]. apply Forall2_app; auto.
  - rewrite map_length, combine_length, app_length. cbn [length]. rewrite Nat.add_1_r. apply Nat.min_id.
Qed.
Lemma wnum_cmp : forall L x u, wnum x u -> nleb (Arith := FA L) n0 x = nleb (Arith := RA) n0 u /\ nleb (Arith := FA L) x n0 = nleb (Arith := RA) u n0.
Proof. intros L x u (k & W & _). split; [apply (on_leb 0 _ _ _ _ (on_zero 0) (wh_on _ _ _ W))|apply (on_leb 0 _ _ _ _ (wh_on _ _ _ W) (on_zero 0))]. Qed.
Lemma convex_wh : forall L l l', wpoly L l l' -> isconvex l = isconvex (A := RA) l'.
Proof.
  intros L l l' W. unfold isconvex. rewrite (valid_wh L l l' W). destruct (poly_isvalid l') as [[|]|]; simpl; auto. pose proof (cps_wh L l l' W) as C. destruct (cps l) as [r|], (cps l') as [r'|]; simpl; try contradiction; [|congruence].
  destruct C as [C _]. f_equal. f_equal; apply (rel_forallb wnum); auto; intros x y H; apply (wnum_cmp L x y H).
Qed.
Lemma sum_wh : forall L r r', Forall2 wnum r r' -> forall k x u, wh k x u -> (Z.abs k + 32000000 * Z.of_nat (length r') < 2 ^ 53)%Z -> exists m, wh m (fold_left (nadd (Arith := FA L)) r x) (fold_left (nadd (Arith := RA)) r' u).
Proof.
  intros L r r' H. induction H as [|x y r r' (m & Wm & Bm) _ IH]; intros k z u W B; [exists k; exact W|]. simpl. simpl length in B. apply (IH (k + m)%Z); [|lia]. apply wh_add; auto. lia.
Qed.
Lemma cw_wh : forall L l l', wpoly L l l' -> (Z.of_nat (length l) <= 10 ^ 8)%Z -> iscw l = iscw (A := RA) l' /\ isccw l = isccw (A := RA) l'.
Proof.
  intros L l l' W B. rewrite (rel_length (wseg L) _ _ W) in B. assert (E : iscw l = iscw (A := RA) l').
  { unfold iscw. rewrite (convex_wh L l l' W). destruct (isconvex l') as [cx|]; [|reflexivity]. cbn [bind]. pose proof (cps_wh L l l' W) as C. destruct (cps l) as [r|], (cps l') as [r'|]; try contradiction; [|simpl; congruence]. destruct C as [C Lr]. cbn [bind].
    destruct cx.
    - destruct (sum_wh L r r' C 0 (FofZ 0) 0) as (m & M); [split; [apply ex_zero|reflexivity]|pose proof (f_equal Z.of_nat Lr : Z.of_nat (@length R r') = Z.of_nat (length l')) as Lr'; clear - Lr' B; lia|]. pose proof (on_ltb 0 _ _ _ _ (on_zero 0) (wh_on _ _ _ M)) as Q. f_equal. f_equal. exact Q.
    - assert (P1 : length (filter (fun x => nleb (Arith := FA L) n0 x) r) = length (filter (fun x => nleb (Arith := RA) n0 x) r')) by (apply (rel_length wnum); apply rel_filter; [exact C|intros x y H; apply (wnum_cmp L x y H)]).
      assert (P2 : length (filter (fun x => nleb (Arith := FA L) x n0) r) = length (filter (fun x => nleb (Arith := RA) x n0) r')) by (apply (rel_length wnum); apply rel_filter; [exact C|intros x y H; apply (wnum_cmp L x y H)]).
      rewrite P1, P2. reflexivity. }
  split; [exact E|]. unfold isccw. rewrite E. reflexivity.
Qed.

(** * The theorems *)
Lemma wseg_intro : forall L (s : seg (FA L)) u, exact_seg s u -> whole_seg u -> wseg L s u.
Proof. intros L s u (C & E1 & E2) [H1 H2]. split; [exact C|]. split; split; auto. Qed.
Lemma wpoly_intro : forall L (l : list (seg (FA L))) l', Forall2 exact_seg l l' -> Forall whole_seg l' -> wpoly L l l'.
Proof. intros L l l' E H. induction E as [|s t l l' E _ IH]; [constructor|]. inversion H; subst. constructor; [apply wseg_intro; auto|apply IH; auto]. Qed.
(*@ C90_intersection *)
(** C90: whole coordinates up to 2000. Parallel segments are recognised without error; for the others the program's
    intersection point exists and misses the exact common point q of the two lines by at most 0.51e-8 and
    |q| * 2^-51 in each coordinate. *)
Lemma intersection_whole : forall L (s t : seg (FA L)) (u v : seg RA), exact_seg s u -> exact_seg t v -> whole_seg u -> whole_seg v ->
  (crossproduct u v = 0 -> intersection_point s t = Ok None) /\
  (crossproduct u v <> 0 -> exists (p : pt (FA L)) (q : pt RA), intersection_point s t = Ok (Some p) /\
     on_line (si u) (sj u) q /\ on_line (si v) (sj v) q /\ double (px p) /\ double (py p) /\
     Rabs (value (px p) - px q) <= 51 / 10 ^ 10 + Rabs (px q) / 2 ^ 51 /\ Rabs (value (py p) - py q) <= 51 / 10 ^ 10 + Rabs (py q) / 2 ^ 51).
Proof.
  intros L s t u v Es Et Hu Hv. pose proof (wseg_intro L s u Es Hu) as Ws. pose proof (wseg_intro L t v Et Hv) as Wt. split.
  - intros Z. unfold intersection_point. rewrite (parallel_wh L s t u v Ws Wt). rewrite (proj2 (is_parallel_iff u v) Z). reflexivity.
  - intros N. destruct (ip_double L s t u v Ws Wt N) as (x & y & nx & ny & d & E & _ & _ & _ & X & Y & [F1 F2] & [G1 G2]).
    exists (@mkpt (FA L) x y), (@mkpt RA (ip_x u v) (ip_y u v)). split; [exact E|]. split; [apply ip_on_first; exact N|]. split; [apply ip_on_second; exact N|]. cbn [px py]. rewrite X, Y. auto.
Qed.
(*@ C90_crossing *)
(** C90: [intersection_on_segment] of the program is the exact answer: true exactly if the segments are not parallel, have a
    common point, and no common end point. *)
Lemma crossing_whole : forall L (s t : seg (FA L)) (u v : seg RA), exact_seg s u -> exact_seg t v -> whole_seg u -> whole_seg v ->
  exists b, intersection_on_segment s t = Ok b /\
   (b = true <-> crossproduct u v <> 0 /\ (exists q, shared u v q) /\ si u <> si v /\ si u <> sj v /\ sj u <> si v /\ sj u <> sj v).
Proof.
  intros L s t u v Es Et [H1 H2] [H3 H4]. rewrite (ios_wh L s t u v (wseg_intro L s u Es (conj H1 H2)) (wseg_intro L t v Et (conj H3 H4))). apply proper_crossing; auto.
Qed.
(*@ C90_common *)
(** C90: the common part of two segments that are not parallel: none if they have no common point, else a Point that misses
    the common point q by less than 0.6e-8 in each coordinate. *)
Lemma common_whole : forall L (s t : seg (FA L)) (u v : seg RA), exact_seg s u -> exact_seg t v -> whole_seg u -> whole_seg v -> crossproduct u v <> 0 ->
  (common_part s t = Ok None /\ forall q, ~ shared u v q) \/
  (exists (p : pt (FA L)) (q : pt RA), common_part s t = Ok (Some (CPoint p)) /\ (forall q', shared u v q' <-> q' = q) /\ double (px p) /\ double (py p) /\
     Rabs (value (px p) - px q) < 6 / 10 ^ 9 /\ Rabs (value (py p) - py q) < 6 / 10 ^ 9).
Proof.
  intros L s t u v Es Et Hu Hv N. pose proof (wseg_intro L s u Es Hu) as Ws. pose proof (wseg_intro L t v Et Hv) as Wt.
  destruct (ip_double L s t u v Ws Wt N) as (x & y & nx & ny & d & E & _ & _ & _ & X & Y & [F1 F2] & [G1 G2]).
  destruct (common_nonparallel u v (proj1 Hu) (proj2 Hu) (proj1 Hv) (proj2 Hv) N) as (q & b & Ib & Bq & Tq & Uq & _).
  unfold common_part. rewrite (parallel_wh L s t u v Ws Wt), (proj2 (is_parallel_false u v) N), E, (ios_wh L s t u v Ws Wt), Ib. cbn [bind option_map].
  rewrite (proj1 (eseg_touch L _ _ _ _ (wseg_eseg _ _ _ Ws) (wseg_eseg _ _ _ Wt))).
  assert (EQ : b || touch u v = true <-> shared u v q).
  { rewrite orb_true_iff. split; [intros [H|H]; [apply Bq; exact H|apply Tq; exact H]|]. intros H. destruct (touch u v) eqn:T; [right; reflexivity|left; apply Bq; auto]. }
  destruct (b || touch u v); [right|left].
  - assert (SH : shared u v q) by (apply EQ; reflexivity).
    assert (Q : q = @mkpt RA (ip_x u v) (ip_y u v)).
    { destruct (ip_on_first u v N) as [a A]. destruct (ip_on_second u v N) as [c C]. destruct SH as [(a' & _ & A') (c' & _ & C')]. eapply (lines_unique u v); eauto; [exists a'|exists c'|exists a|exists c]; auto. }
    exists (@mkpt (FA L) x y), q. split; [reflexivity|]. split; [intros q'; split; [apply Uq|intros ->; exact SH]|]. cbn [px py]. split; [exact F1|]. split; [exact G1|].
    assert (BX : Rabs (px q) <= 2000 /\ Rabs (py q) <= 2000).
    { destruct SH as [Sq _]. apply segment_box in Sq. destruct Hu as [(a1 & b1 & A1 & B1 & C1 & D1) (a2 & b2 & A2 & B2 & C2 & D2)]. rewrite A1, A2, B1, B2 in Sq.
      assert (K : forall z, (Z.abs z <= 2000)%Z -> -2000 <= IZR z <= 2000) by (intros z Hz; split; apply IZR_le; lia).
      pose proof (K _ C1). pose proof (K _ C2). pose proof (K _ D1). pose proof (K _ D2). unfold Rmin, Rmax in Sq. split; apply Rabs_le; repeat match type of Sq with context [Rle_dec ?p ?r] => destruct (Rle_dec p r) end; lra. }
    rewrite <- X in F2. rewrite <- Y in G2. assert (PX : px q = ip_x u v) by (rewrite Q; reflexivity). assert (PY : py q = ip_y u v) by (rewrite Q; reflexivity). rewrite <- PX in F2. rewrite <- PY in G2. destruct BX. split; lra.
  - split; [reflexivity|]. intros q' H. assert (H' := H). apply Uq in H. subst q'. apply EQ in H'. discriminate.
Qed.
Lemma continuous_whole : forall u v : seg RA, whole_seg u -> whole_seg v -> (continuous u v = true <-> sj u = si v \/ si u = sj v).
Proof.
  intros u v [H1 H2] [H3 H4]. destruct (continuous_spec u v) as (_ & _ & C). rewrite C, !(lattice_eqb 2000) by auto. split; [intros [_ H]; exact H|]. intros H. split; [|exact H].
  apply (touch_lattice 2000); auto. simpl. destruct H as [H|H]; [exists (sj u)|exists (si u)]; auto.
Qed.
(*@ C90_valid *)
(** C90: a polygon line with whole coordinates up to 2000 is valid for the program exactly if it has a segment, of consecutive
    segments one ends where the other starts, and no two segments that share no end point, and are not parallel,
    have a common point. *)
Lemma valid_whole : forall L (l : list (seg (FA L))) (l' : list (seg RA)), Forall2 exact_seg l l' -> Forall whole_seg l' ->
  exists b : bool, poly_isvalid l = Ok b /\
  (b = true <-> l' <> [] /\
     (forall k u v, nth_error l' k = Some u -> nth_error l' (S k) = Some v -> sj u = si v \/ si u = sj v) /\
     (forall u v, distinct_positions l' u v -> ~ (crossproduct u v <> 0 /\ (exists q, shared u v q) /\ si u <> si v /\ si u <> sj v /\ sj u <> si v /\ sj u <> sj v))).
Proof.
  intros L l l' E W. rewrite (valid_wh L l l' (wpoly_intro L l l' E W)). destruct (isvalid_spec l') as (b & Eb & Hb). exists b. split; [exact Eb|]. rewrite Hb. clear Eb Hb.
  assert (K : forall u v, distinct_positions l' u v -> (intersection_on_segment u v = Ok false <-> ~ (crossproduct u v <> 0 /\ (exists q, shared u v q) /\ si u <> si v /\ si u <> sj v /\ sj u <> si v /\ sj u <> sj v))).
  { intros u v (a & b' & _ & I1 & I2). rewrite Forall_forall in W. destruct (W u (nth_error_In _ _ I1)) as [H1 H2]. destruct (W v (nth_error_In _ _ I2)) as [H3 H4].
    destruct (proper_crossing u v H1 H2 H3 H4) as (c & C & D). rewrite C. split; [intros X Y; apply D in Y; congruence|]. intros X. destruct c; [exfalso; apply X; apply D; reflexivity|reflexivity]. }
  assert (J : forall k u v, nth_error l' k = Some u -> nth_error l' (S k) = Some v -> (continuous u v = true <-> sj u = si v \/ si u = sj v)).
  { intros k u v I1 I2. rewrite Forall_forall in W. apply continuous_whole; apply W; eapply nth_error_In; eauto. }
  split; intros (H1 & H2 & H3); (split; [exact H1|]); (split; [intros k u v I1 I2; apply (J k u v I1 I2); eauto|]); intros u v P; apply (K u v P); auto.
Qed.
(*@ C90_convex *)
(** C90: [isconvex] of the program raises for lines that are not valid, and otherwise says without error whether left and right
    turns both occur. *)
Lemma convex_whole : forall L (l : list (seg (FA L))) (l' : list (seg RA)), Forall2 exact_seg l l' -> Forall whole_seg l' ->
  (poly_isvalid l = Ok false -> isconvex l = Err AssertionError) /\
  (poly_isvalid l = Ok true -> exists b, isconvex l = Ok b /\
     (b = false <-> (exists u v, In (u, v) (cycle_edges l') /\ 0 < crossproduct u v) /\ (exists u v, In (u, v) (cycle_edges l') /\ crossproduct u v < 0))).
Proof.
  intros L l l' E W. pose proof (wpoly_intro L l l' E W) as P. rewrite (valid_wh L l l' P), (convex_wh L l l' P). apply isconvex_spec.
Qed.
(*@ C90_orientation *)
(** C90: if every vertex is on or left of every directed edge and the area is positive, the closed line through the vertices is
    valid, convex and counter-clockwise for the program (up to a hundred million vertices). *)
Lemma orientation_whole : forall L (vs : list (pt (FA L))) (vs' : list (pt RA)), Forall2 exact_pt vs vs' -> Forall (lattice 2000) vs' -> (Z.of_nat (length vs) <= 10 ^ 8)%Z ->
  (forall a b, In (a, b) (cycle_edges vs') -> a <> b) ->
  (forall a b c, In (a, b) (cycle_edges vs') -> In c vs' -> 0 <= orient a b c) ->
  0 < shoelace vs' ->
  poly_isvalid (cycle_poly vs) = Ok true /\ isconvex (cycle_poly vs) = Ok true /\ iscw (cycle_poly vs) = Ok false /\ isccw (cycle_poly vs) = Ok true.
Proof.
  intros L vs vs' E W Ln H1 H2 H3.
  assert (WP : wpoly L (cycle_poly vs) (cycle_poly (A := RA) vs')).
  { assert (W' : Forall2 (wpt L) vs vs') by (clear - E W; induction E as [|p q l l' E _ IH]; [constructor|]; inversion W; subst; constructor; [split; auto|auto]).
    unfold cycle_poly, wpoly. apply (rel_map (fun a b => wpt L (fst a) (fst b) /\ wpt L (snd a) (snd b))); [|intros [a b] [c d] [K1 K2]; split; [reflexivity|split; assumption]].
    unfold cycle_edges. destruct W' as [|p q l l' K M]; [constructor|]. apply combine_rel; [constructor; auto|]. apply Forall2_app; auto. }
  assert (LN : (Z.of_nat (length (cycle_poly vs)) <= 10 ^ 8)%Z).
  { unfold cycle_poly, cycle_edges. rewrite map_length. destruct vs as [|w ws]; [simpl; lia|]. rewrite combine_length, app_length. change (length [w]) with 1%nat. rewrite Nat.add_1_r. change (length (w :: ws)) with (S (length ws)) in *. rewrite Nat.min_id. exact Ln. }
  assert (SP : separated vs').
  { intros p q Ip Iq D1 D2. rewrite Forall_forall in W. destruct (dyadic_clear p q (lattice_dyadic p (W p Ip)) (lattice_dyadic q (W q Iq))) as [C|[C|C]]; [exact C|lra|lra]. }
  destruct (convex_orientation vs' H1 H2 H3 SP) as (K1 & K2 & K3 & K4 & _). destruct (cw_wh L _ _ WP LN) as [C1 C2].
  rewrite (valid_wh L _ _ WP), (convex_wh L _ _ WP), C1, C2. auto.
Qed.
Lemma FofZ_exact : forall k, (Z.abs k <= 2 ^ 24)%Z -> exactly (FofZ k) (IZR k).
Proof.
  intros k K. unfold FofZ. change (SpecFloat.binary_normalize fprec femax k 0 false) with (SpecFloat.binary_normalize 53 1024 k 0 false). rewrite normalize_eq.
  pose proof (binary_normalize_correct 53 1024 P53 P1024 mode_NE k 0 false) as C. simpl round_mode in C.
  assert (E : F2R (Float radix2 k 0) = IZR k) by (unfold F2R; simpl; lra). rewrite E in C.
  assert (R : nearest (IZR k) = IZR k) by (pose proof (ex_format 0 k ltac:(lia) ltac:(lia)) as X; replace (IZR k * bpow radix2 (- 0)) with (IZR k) in X by (simpl; lra); exact X).
  assert (B : Rabs (IZR k) <= bpow radix2 60) by (pose proof (ex_small 0 k ltac:(lia) ltac:(lia)) as X; replace (IZR k * bpow radix2 (- 0)) with (IZR k) in X by (simpl; lra); exact X).
  cbv zeta in C. rewrite (no_overflow _ B) in C. destruct C as (C1 & C2 & _). destruct (B_fin _ C2) as [K1 K2]. split; [exact K1|]. rewrite K2, C1. exact R.
Qed.
(*@ C90_points *)
(** C90: the Points made of two integers up to 2000 are those integers, in the program and exactly: the hypotheses of the
    theorems above hold for every polygon with such vertices. *)
Lemma points_whole : forall L (vs : list (Z * Z)), Forall (fun v => (Z.abs (fst v) <= 2000)%Z /\ (Z.abs (snd v) <= 2000)%Z) vs ->
  Forall2 exact_pt (zpts (FA L) vs) (zpts RA vs) /\ Forall (lattice 2000) (zpts RA vs) /\
  Forall2 exact_seg (cycle_poly (zpts (FA L) vs)) (cycle_poly (zpts RA vs)) /\ Forall whole_seg (cycle_poly (zpts RA vs)) /\
  zpts RA vs = map (fun v => @mkpt RA (IZR (fst v)) (IZR (snd v))) vs.
Proof.
  intros L vs H.
  assert (ID : forall k, (Z.abs k <= 2000)%Z -> exactly (Fround8 (FofZ k)) (IZR k) /\ Rround8 (IZR k) = IZR k).
  { intros k K. assert (D : dyadic (IZR k)) by (exists (k * 256)%Z; split; [lia|]; rewrite mult_IZR; lra). pose proof (FofZ_exact k ltac:(lia)) as E. pose proof (round8_exact _ _ E D) as R.
    assert (I : Rround8 (IZR k) = IZR k) by (apply round8_id; apply (dyadic_d8 _ D)). rewrite I in R. auto. }
  assert (Z : zpts RA vs = map (fun v => @mkpt RA (IZR (fst v)) (IZR (snd v))) vs).
  { unfold zpts. apply map_ext_in. intros [a b] I. rewrite Forall_forall in H. destruct (H _ I) as [A B]. simpl in *. unfold Point_new. f_equal; apply (ID _ A) || apply (ID _ B). }
  assert (E : Forall2 exact_pt (zpts (FA L) vs) (zpts RA vs)).
  { rewrite Z. unfold zpts. clear Z. induction H as [|[a b] l [A B] _ IH]; [constructor|]. simpl in *. constructor; [|exact IH]. split; [apply (ID a A)|apply (ID b B)]. }
  assert (W : Forall (lattice 2000) (zpts RA vs)).
  { rewrite Z. apply Forall_forall. intros p I. apply in_map_iff in I. destruct I as ([a b] & <- & I). rewrite Forall_forall in H. destruct (H _ I) as [A B]. exists a, b. auto. }
  split; [exact E|]. split; [exact W|]. 
  assert (WP : Forall2 (fun s t => exact_seg s t /\ whole_seg t) (cycle_poly (zpts (FA L) vs)) (cycle_poly (zpts RA vs))).
  { clear Z H. revert E W. generalize (zpts (FA L) vs) (zpts RA vs). intros ps qs E W. assert (W' : Forall2 (fun p q => exact_pt p q /\ lattice 2000 q) ps qs) by (induction E as [|p q l l' E _ IH]; [constructor|]; inversion W; subst; constructor; [split; auto|auto]).
    unfold cycle_poly. apply (rel_map (fun a b => (exact_pt (fst a) (fst b) /\ lattice 2000 (fst b)) /\ (exact_pt (snd a) (snd b) /\ lattice 2000 (snd b)))).
    - unfold cycle_edges. destruct W' as [|p q l l' K M]; [constructor|]. apply (combine_rel (fun p q => exact_pt p q /\ lattice 2000 q) (fun p q => exact_pt p q /\ lattice 2000 q)); [constructor; auto|]. apply Forall2_app; auto.
    - intros [a b] [c d] [[K1 K2] [K3 K4]]. split; [split; [reflexivity|split; assumption]|split; assumption]. }
  split; [clear - WP; induction WP as [|s t l l' [A B] _ IH]; constructor; auto|]. split; [|exact Z].
  clear - WP. induction WP as [|s t l l' [A B] _ IH]; constructor; auto.
Qed.
(*@ex C90_example *)
(** C90: an integer polygon with a crossing is not valid for the program; without it, it is. *)
Lemma whole_example : forall L : Libm,
  let bow := [(0, 0); (1999, 1000); (2000, -7); (3, 900)]%Z in let quad := [(0, 0); (2000, -7); (1999, 1000); (3, 900)]%Z in
  Forall (fun v => (Z.abs (fst v) <= 2000)%Z /\ (Z.abs (snd v) <= 2000)%Z) (bow ++ quad) /\
  poly_isvalid (cycle_poly (zpts (FA L) bow)) = Ok false /\ poly_isvalid (cycle_poly (zpts (FA L) quad)) = Ok true /\
  isccw (cycle_poly (zpts (FA L) quad)) = Ok true.
Proof.
  intros L bow quad. split; [apply Forall_forall; intros v I; simpl in I; repeat (destruct I as [<-|I]; [simpl; lia|]); destruct I|]. repeat split; vm_compute; reflexivity.
Qed.
