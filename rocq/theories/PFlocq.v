(** Binary64 arithmetic on coordinates with 8 decimals: the operations of [ArithF.v] and the real numbers. *)
From Coq Require Import ZArith Reals Lra Lia Bool List Floats.SpecFloat.
From Flocq Require Import Core BinarySingleNaN.
From Verif Require Import Base Arith ArithR ArithF MPoint MLine MPoly MHeap Spec SpecHeap SpecDouble.
Local Open Scope R_scope.

#[local] Instance P53 : Prec_gt_0 53. Proof. exact eq_refl. Qed.
#[local] Instance P1024 : Prec_lt_emax 53 1024. Proof. exact eq_refl. Qed.
Notation B := (binary_float 53 1024).
Notation fx := (SpecFloat.fexp 53 1024).
#[local] Instance Vfx : Valid_exp fx := FLT_exp_valid (-1074) 53.
#[local] Instance Mfx : Monotone_exp fx := FLT_exp_monotone (-1074) 53.
Notation rnd := nearest.
Notation fin := double.
Notation val := value.

Lemma fin_B : forall x, fin x -> exists b : B, x = B2SF b /\ is_finite b = true /\ B2R b = val x.
Proof.
  intros x [V Fx]. exists (SF2B x V). rewrite B2SF_SF2B. split; [reflexivity|]. rewrite is_finite_SF2B, B2R_SF2B. auto.
Qed.
Lemma B_fin : forall b : B, is_finite b = true -> fin (B2SF b) /\ val (B2SF b) = B2R b.
Proof. intros b Fb. split; [split; [apply valid_binary_B2SF|rewrite is_finite_SF_B2SF; exact Fb]|apply SF2R_B2SF]. Qed.

Lemma choice_eq : forall s m l, round_nearest_even m l = choice_mode mode_NE s m l.
Proof. intros s m [|c]; [reflexivity|]. destruct c; [|reflexivity|reflexivity]. simpl. unfold Round.cond_incr. destruct (Z.even m); reflexivity. Qed.
Lemma aux_eq : forall s m e l, SpecFloat.binary_round_aux 53 1024 s m e l = binary_round_aux 53 1024 mode_NE s m e l.
Proof. intros s m e l. unfold SpecFloat.binary_round_aux, binary_round_aux. destruct (shr_fexp 53 1024 m e l) as [mrs e']. rewrite (choice_eq s). reflexivity. Qed.
Lemma round_eq : forall s m e, SpecFloat.binary_round 53 1024 s m e = binary_round 53 1024 mode_NE s m e.
Proof. intros s m e. unfold SpecFloat.binary_round, binary_round, shl_align_fexp. destruct (shl_align _ _ _). apply aux_eq. Qed.
Lemma normalize_eq : forall m e s, SpecFloat.binary_normalize 53 1024 m e s = B2SF (binary_normalize 53 1024 P53 P1024 mode_NE m e s).
Proof. intros [|p|p] e s; [reflexivity| |]; simpl; rewrite B2SF_SF2B; apply round_eq. Qed.

Lemma add_eq : forall x y : B, Fadd (B2SF x) (B2SF y) = B2SF (Bplus mode_NE x y).
Proof. intros [sx|sx| |sx mx ex Hx] [sy|sy| |sy my ey Hy]; try reflexivity; try (simpl; destruct (Bool.eqb sx sy); reflexivity). apply normalize_eq. Qed.
Lemma sub_eq : forall x y : B, Fsub (B2SF x) (B2SF y) = B2SF (Bminus mode_NE x y).
Proof. intros [sx|sx| |sx mx ex Hx] [sy|sy| |sy my ey Hy]; try reflexivity; try (simpl; destruct sx, sy; reflexivity). simpl. unfold Zminus. rewrite <- cond_Zopp_negb. apply normalize_eq. Qed.
Lemma mul_eq : forall x y : B, Fmul (B2SF x) (B2SF y) = B2SF (Bmult mode_NE x y).
Proof. intros [sx|sx| |sx mx ex Hx] [sy|sy| |sy my ey Hy]; try reflexivity. simpl. rewrite B2SF_SF2B. apply aux_eq. Qed.

(** * Sums, differences, products and comparisons *)
Lemma rnd_small : forall z, Rabs z <= bpow radix2 60 -> Rabs (rnd z) <= bpow radix2 60.
Proof. intros z H. apply abs_round_le_generic; auto with typeclass_instances. apply generic_format_bpow. cbv. discriminate. Qed.
Lemma no_overflow : forall z, Rabs z <= bpow radix2 60 -> Rlt_bool (Rabs (round radix2 fx ZnearestE z)) (bpow radix2 1024) = true.
Proof. intros z H. change (round radix2 fx ZnearestE z) with (rnd z). revert z H. intros z H. apply Rlt_bool_true. apply Rle_lt_trans with (bpow radix2 60); [apply rnd_small; exact H|]. apply bpow_lt. lia. Qed.
Lemma fadd : forall x y, fin x -> fin y -> Rabs (val x + val y) <= bpow radix2 60 -> fin (Fadd x y) /\ val (Fadd x y) = rnd (val x + val y).
Proof.
  intros x y Fx Fy H. destruct (fin_B x Fx) as (bx & -> & Gx & Vx). destruct (fin_B y Fy) as (b' & -> & Gy & Vy). rewrite add_eq, <- Vx, <- Vy in *.
  pose proof (Bplus_correct 53 1024 P53 P1024 mode_NE bx b' Gx Gy) as C. pose proof (no_overflow _ H) as N. simpl round_mode in C. rewrite N in C.
  destruct C as (C1 & C2 & _). destruct (B_fin _ C2) as [K1 K2]. split; [exact K1|]. rewrite K2. exact C1.
Qed.
Lemma fsub : forall x y, fin x -> fin y -> Rabs (val x - val y) <= bpow radix2 60 -> fin (Fsub x y) /\ val (Fsub x y) = rnd (val x - val y).
Proof.
  intros x y Fx Fy H. destruct (fin_B x Fx) as (bx & -> & Gx & Vx). destruct (fin_B y Fy) as (b' & -> & Gy & Vy). rewrite sub_eq, <- Vx, <- Vy in *.
  pose proof (Bminus_correct 53 1024 P53 P1024 mode_NE bx b' Gx Gy) as C. pose proof (no_overflow _ H) as N. simpl round_mode in C. rewrite N in C.
  destruct C as (C1 & C2 & _). destruct (B_fin _ C2) as [K1 K2]. split; [exact K1|]. rewrite K2. exact C1.
Qed.
Lemma fmul : forall x y, fin x -> fin y -> Rabs (val x * val y) <= bpow radix2 60 -> fin (Fmul x y) /\ val (Fmul x y) = rnd (val x * val y).
Proof.
  intros x y Fx Fy H. destruct (fin_B x Fx) as (bx & -> & Gx & Vx). destruct (fin_B y Fy) as (b' & -> & Gy & Vy). rewrite mul_eq, <- Vx, <- Vy in *.
  pose proof (Bmult_correct 53 1024 P53 P1024 mode_NE bx b') as C. pose proof (no_overflow _ H) as N. simpl round_mode in C. rewrite N in C.
  destruct C as (C1 & C2 & _). rewrite Gx, Gy in C2. destruct (B_fin _ C2) as [K1 K2]. split; [exact K1|]. rewrite K2. exact C1.
Qed.
Lemma fltb : forall x y, fin x -> fin y -> SFltb x y = Rlt_bool (val x) (val y).
Proof.
  intros x y Fx Fy. destruct (fin_B x Fx) as (bx & -> & Gx & Vx). destruct (fin_B y Fy) as (b' & -> & Gy & Vy). rewrite <- Vx, <- Vy. apply Bltb_correct; auto.
Qed.
Lemma fleb : forall x y, fin x -> fin y -> SFleb x y = Rle_bool (val x) (val y).
Proof.
  intros x y Fx Fy. destruct (fin_B x Fx) as (bx & -> & Gx & Vx). destruct (fin_B y Fy) as (b' & -> & Gy & Vy). rewrite <- Vx, <- Vy. apply Bleb_correct; auto.
Qed.
Lemma feqb : forall x y, fin x -> fin y -> SFeqb x y = Req_bool (val x) (val y).
Proof.
  intros x y Fx Fy. destruct (fin_B x Fx) as (bx & -> & Gx & Vx). destruct (fin_B y Fy) as (b' & -> & Gy & Vy). rewrite <- Vx, <- Vy. apply Beqb_correct; auto.
Qed.
Lemma fabs : forall x, fin x -> fin (SFabs x) /\ val (SFabs x) = Rabs (val x).
Proof.
  intros x Fx. destruct (fin_B x Fx) as (bx & -> & Gx & Vx). rewrite <- Vx. rewrite <- B2R_Babs. replace (SFabs (B2SF bx)) with (B2SF (Babs bx)) by (destruct bx; reflexivity). apply B_fin. rewrite is_finite_Babs. exact Gx.
Qed.
Lemma fopp : forall x, fin x -> fin (SFopp x) /\ val (SFopp x) = - val x.
Proof.
  intros x Fx. destruct (fin_B x Fx) as (bx & -> & Gx & Vx). rewrite <- Vx. rewrite <- B2R_Bopp. replace (SFopp (B2SF bx)) with (B2SF (Bopp bx)) by (destruct bx; reflexivity). apply B_fin. rewrite is_finite_Bopp. exact Gx.
Qed.
(** Equal values: the same double, or two zeros. *)
Lemma val_inj : forall x y, fin x -> fin y -> val x = val y -> val x <> 0 -> x = y.
Proof.
  intros x y Fx Fy E N. destruct (fin_B x Fx) as (bx & -> & Gx & Vx). destruct (fin_B y Fy) as (b' & -> & Gy & Vy). f_equal. rewrite <- Vx, <- Vy in *.
  apply B2R_inj; auto; apply is_finite_strict_B2R; congruence.
Qed.
Lemma val_zero : forall x, fin x -> val x = 0 -> exists s, x = S754_zero s.
Proof.
  intros [s|s| |s m e] [_ Fx] Z; try discriminate; [eauto|]. unfold value in Z. simpl in Z. apply eq_0_F2R in Z. destruct s; discriminate.
Qed.

(** * Rounding to 8 decimals *)
Lemma Znear_spec : forall n d, (0 < d)%Z -> Znear n d = ZnearestE (IZR n / IZR d).
Proof.
  intros n d D. unfold Znear, Znearest. rewrite Zfloor_div by lia. set (q := (n / d)%Z). set (r := (n mod d)%Z).
  assert (E : n = (d * q + r)%Z) by (apply Z_div_mod_eq_full). assert (R : (0 <= r < d)%Z) by (apply Z.mod_pos_bound; exact D).
  assert (DP : 0 < IZR d) by (apply IZR_lt; exact D).
  assert (X : IZR n / IZR d - IZR q = IZR r / IZR d) by (rewrite E, plus_IZR, mult_IZR; field; lra).
  assert (CE : r <> 0%Z -> Zceil (IZR n / IZR d) = (q + 1)%Z).
  { intros N. assert (Q : Zfloor (IZR n / IZR d) = q) by (apply Zfloor_div; lia). rewrite Zceil_floor_neq; [rewrite Q; reflexivity|]. rewrite Q. intros H.
    assert (IZR r / IZR d = 0) by lra. apply N. apply eq_IZR. apply Rmult_eq_reg_r with (/ IZR d); [unfold Rdiv in *; lra|apply Rinv_neq_0_compat; lra]. }
  rewrite X. destruct (Z.compare_spec (2 * r) d) as [C|C|C].
  - rewrite Rcompare_Eq by (rewrite <- C, mult_IZR; field; apply IZR_neq; lia). rewrite CE by lia. destruct (Z.even q); reflexivity.
  - rewrite Rcompare_Lt; [reflexivity|]. apply IZR_lt in C. rewrite mult_IZR in C. apply Rmult_lt_reg_r with (IZR d); [exact DP|]. unfold Rdiv. rewrite Rmult_assoc, Rinv_l by lra. lra.
  - rewrite Rcompare_Gt; [rewrite CE by lia; reflexivity|]. apply IZR_lt in C. rewrite mult_IZR in C. apply Rmult_lt_reg_r with (IZR d); [exact DP|]. unfold Rdiv. rewrite Rmult_assoc, Rinv_l by lra. lra.
Qed.
Lemma nearest_opp : forall x, ZnearestE (- x) = (- ZnearestE x)%Z.
Proof.
  intros x. rewrite Znearest_opp. f_equal. unfold Znearest. destruct (Rcompare _ _); auto.
  replace (negb (negb (Z.even (- (Zfloor x + 1))))) with (negb (Z.even (Zfloor x))); [reflexivity|]. rewrite negb_involutive, Z.even_opp, Z.even_add. destruct (Z.even (Zfloor x)); reflexivity.
Qed.
(** [round(x, 8)] of a finite double: the double nearest to the decimal nearest to it. *)
Lemma fround8 : forall x, fin x -> fin (Fround8 x) /\ val (Fround8 x) = rnd (IZR (ZnearestE (val x * 10 ^ 8)) / 10 ^ 8).
Proof.
  intros [s|s| |s m e] [V Fx]; try discriminate.
  - split; [split; auto|]. unfold value. simpl SF2R. rewrite Rmult_0_l. change 0 with (IZR 0). rewrite (Zrnd_IZR ZnearestE). unfold nearest, Rdiv. rewrite Rmult_0_l. symmetry. apply round_0. apply valid_rnd_N.
  - cbn [Fround8]. destruct (Z.leb_spec 0 e) as [E|E].
    + split; [split; auto|].
      assert (Z : exists n, val (S754_finite s m e) = IZR n). { exists (cond_Zopp s (Zpos m) * 2 ^ e)%Z. unfold value. simpl SF2R. unfold F2R. cbn [Fnum Fexp]. rewrite mult_IZR. f_equal. rewrite <- IZR_Zpower by exact E. reflexivity. }
      destruct Z as (n & Z). assert (K : val (S754_finite s m e) * 10 ^ 8 = IZR (n * 100000000)) by (rewrite Z, mult_IZR; lra). rewrite K, (Zrnd_IZR ZnearestE), mult_IZR.
      replace (IZR n * 100000000 / 10 ^ 8) with (val (S754_finite s m e)) by (rewrite Z; field). unfold nearest. symmetry. apply round_generic; [apply valid_rnd_N|].
      destruct (fin_B (S754_finite s m e) (conj V Fx)) as (b & _ & _ & VB). rewrite <- VB. apply generic_format_B2R.
    + set (n := Znear (Zpos m * 100000000) (2 ^ (- e))).
      assert (P2 : (0 < 2 ^ (- e))%Z) by (apply Z.pow_pos_nonneg; lia).
      assert (VM : F2R (Float radix2 (Zpos m) e) * 10 ^ 8 = IZR (Zpos m * 100000000) / IZR (2 ^ (- e))).
      { unfold F2R. cbn [Fnum Fexp]. rewrite mult_IZR. replace e with (- - e)%Z at 1 by lia. rewrite bpow_opp, <- IZR_Zpower by lia. replace (Zpower radix2 (- e)) with (2 ^ (- e))%Z by reflexivity. field. apply IZR_neq. lia. }
      assert (NV : ZnearestE (F2R (Float radix2 (Zpos m) e) * 10 ^ 8) = n) by (rewrite VM; unfold n; rewrite Znear_spec by exact P2; reflexivity).
      assert (NS : ZnearestE (val (S754_finite s m e) * 10 ^ 8) = cond_Zopp s n).
      { unfold value. simpl SF2R. destruct s; simpl cond_Zopp; [|exact NV]. change (Zneg m) with (- Zpos m)%Z. rewrite F2R_Zopp, Ropp_mult_distr_l_reverse, nearest_opp, NV. reflexivity. }
      assert (N0 : (0 <= n)%Z).
      { unfold n, Znear. pose proof (Z.div_pos (Zpos m * 100000000) (2 ^ (- e)) ltac:(lia) P2). destruct (Z.compare _ _); [destruct (Z.even _)| |]; lia. }
      assert (NB : (n <= Zpos m * 100000000 + 1)%Z).
      { unfold n, Znear. pose proof (Z.div_le_upper_bound (Zpos m * 100000000) (2 ^ (- e)) (Zpos m * 100000000) P2 ltac:(nia)). destruct (Z.compare _ _); [destruct (Z.even _)| |]; lia. }
      assert (MB : (Zpos m < 2 ^ 53)%Z).
      { cbn [valid_binary] in V. unfold bounded, canonical_mantissa in V. apply andb_prop in V. destruct V as [V _]. apply Zeq_bool_eq in V. unfold SpecFloat.fexp in V. rewrite Zpos_digits2_pos in V.
        assert (DG : (Zdigits radix2 (Zpos m) <= 53)%Z) by lia. pose proof (Zdigits_correct radix2 (Zpos m)) as [_ DC]. rewrite Z.abs_eq in DC by lia. apply Z.lt_le_trans with (1 := DC). apply (Zpower_le radix2). exact DG. }
      rewrite NS. destruct (Z.eqb_spec n 0) as [Z|Z].
      * rewrite Z. split; [split; reflexivity|]. unfold value. simpl SF2R. destruct s; simpl cond_Zopp; unfold nearest, Rdiv; rewrite Rmult_0_l; symmetry; apply round_0; apply valid_rnd_N.
      * destruct n as [|p|p] eqn:EN; [congruence| |lia].
        pose proof (Bdiv_correct_aux 53 1024 P53 P1024 mode_NE s p 0 false 100000000 0) as C. cbv zeta in C.
        destruct (SFdiv_core_binary 53 1024 (Zpos p) 0 100000000 0) as [[mz ez] lz] eqn:DC. change (SFdiv_core_binary fprec femax (Zpos p) 0 100000000 0) with (SFdiv_core_binary 53 1024 (Zpos p) 0 100000000 0). rewrite DC.
        change (SpecFloat.binary_round_aux fprec femax s mz ez lz) with (SpecFloat.binary_round_aux 53 1024 s mz ez lz). rewrite aux_eq. rewrite xorb_false_r in C.
        assert (Q : F2R (Float radix2 (cond_Zopp s (Zpos p)) 0) / F2R (Float radix2 (cond_Zopp false (Zpos 100000000)) 0) = IZR (cond_Zopp s (Zpos p)) / 10 ^ 8).
        { unfold F2R. cbn [Fnum Fexp cond_Zopp]. simpl bpow. lra. }
        rewrite Q in C. simpl round_mode in C.
        assert (SM : Rabs (IZR (cond_Zopp s (Zpos p)) / 10 ^ 8) <= bpow radix2 60). { unfold Rdiv. rewrite Rabs_mult. rewrite (Rabs_pos_eq (/ 10 ^ 8)) by (apply Rlt_le, Rinv_0_lt_compat; lra). rewrite <- abs_IZR. replace (Z.abs (cond_Zopp s (Zpos p))) with (Zpos p) by (destruct s; reflexivity).
          apply IZR_le in NB. apply IZR_lt in MB. rewrite plus_IZR, mult_IZR in NB. change (2 ^ 53)%Z with 9007199254740992%Z in MB. replace (bpow radix2 60) with 1152921504606846976 by reflexivity. apply Rmult_le_reg_r with (10 ^ 8); [lra|]. unfold Rdiv. rewrite Rmult_assoc, Rinv_l by lra. lra. }
        pose proof (no_overflow _ SM) as NO. rewrite NO in C. destruct C as (C1 & C2 & C3 & _). split; [split; auto|]. exact C2.
Qed.

(** * Decimals *)
Definition eps : R := 1 / 2147483648.
Lemma rnd_err : forall z, Rabs z <= 4194304 -> Rabs (rnd z - z) <= eps.
Proof.
  intros z H. pose proof (error_le_half_ulp radix2 fx (fun n => negb (Z.even n)) z) as E. unfold nearest.
  assert (U : ulp radix2 fx z <= bpow radix2 (-30)).
  { apply Rle_trans with (ulp radix2 fx (bpow radix2 22)).
    - apply ulp_le; [apply Vfx|apply Mfx|]. rewrite (Rabs_pos_eq (bpow radix2 22)) by apply bpow_ge_0. simpl. lra.
    - rewrite ulp_bpow. apply bpow_le. cbv. discriminate. }
  replace (bpow radix2 (-30)) with (/ 1073741824) in U by reflexivity. apply Rle_trans with (1 := E). unfold eps. lra.
Qed.
Lemma st_err : forall x u, stands x u -> Rabs u <= 4194304 -> Rabs (val x - u) <= eps.
Proof. intros x u [_ E] H. rewrite E. apply rnd_err. exact H. Qed.

(** A double within 4.6 e-9 of a decimal is rounded to it. *)
Lemma round_to : forall x u, fin x -> decimal8 u -> Rabs (val x - u) <= 46 / 10 ^ 10 -> stands (Fround8 x) u.
Proof.
  intros x u Fx [k ->] H. destruct (fround8 x Fx) as [K1 K2]. split; [exact K1|]. rewrite K2. f_equal. f_equal. f_equal. apply Znearest_imp.
  replace (val x * 10 ^ 8 - IZR k) with ((val x - IZR k / 10 ^ 8) * 10 ^ 8) by (field; lra). rewrite Rabs_mult, (Rabs_pos_eq (10 ^ 8)) by lra. lra.
Qed.
Ltac small := unfold eps in *; repeat match goal with H : Rabs _ <= _ |- _ => apply Rabs_le_inv in H end; apply Rabs_le; lra.
Lemma big : forall z, Rabs z <= 4194304 -> Rabs z <= bpow radix2 60.
Proof. intros z H. replace (bpow radix2 60) with 1152921504606846976 by reflexivity. lra. Qed.
Lemma d8_add : forall u v, decimal8 u -> decimal8 v -> decimal8 (u + v).
Proof. intros u v [a ->] [b ->]. exists (a + b)%Z. rewrite plus_IZR. field. Qed.
Lemma d8_sub : forall u v, decimal8 u -> decimal8 v -> decimal8 (u - v).
Proof. intros u v [a ->] [b ->]. exists (a - b)%Z. rewrite minus_IZR. field. Qed.

Lemma st_round : forall x u, stands x u -> decimal8 u -> Rabs u <= 4194304 -> stands (Fround8 x) u.
Proof. intros x u Sx D H. pose proof (st_err x u Sx H) as E. destruct Sx as [Fx _]. apply round_to; auto. unfold eps in E. lra. Qed.
Lemma st_add : forall x y u v, stands x u -> stands y v -> decimal8 u -> decimal8 v -> Rabs u <= 2000000 -> Rabs v <= 2000000 -> stands (Fround8 (Fadd x y)) (u + v).
Proof.
  intros x y u v Sx Sy Du Dv Hu Hv. pose proof (st_err x u Sx ltac:(lra)) as Ex. pose proof (st_err y v Sy ltac:(lra)) as Ey.
  assert (B : Rabs (val x + val y) <= 4194304) by small. destruct (fadd x y (proj1 Sx) (proj1 Sy) (big _ B)) as [K1 K2].
  pose proof (rnd_err _ B) as E. rewrite <- K2 in E. apply round_to; auto; [apply d8_add; auto|]. small.
Qed.
Lemma st_sub : forall x y u v, stands x u -> stands y v -> decimal8 u -> decimal8 v -> Rabs u <= 2000000 -> Rabs v <= 2000000 -> stands (Fround8 (Fsub x y)) (u - v).
Proof.
  intros x y u v Sx Sy Du Dv Hu Hv. pose proof (st_err x u Sx ltac:(lra)) as Ex. pose proof (st_err y v Sy ltac:(lra)) as Ey.
  assert (B : Rabs (val x - val y) <= 4194304) by small. destruct (fsub x y (proj1 Sx) (proj1 Sy) (big _ B)) as [K1 K2].
  pose proof (rnd_err _ B) as E. rewrite <- K2 in E. apply round_to; auto; [apply d8_sub; auto|]. small.
Qed.
Lemma two : fin (FofZ 2) /\ val (FofZ 2) = 2.
Proof. split; [split; reflexivity|]. unfold value. simpl. unfold F2R. simpl. lra. Qed.
Lemma st_mirror : forall x y u v, stands x u -> stands y v -> decimal8 u -> decimal8 v -> Rabs u <= 1000000 -> Rabs v <= 1000000 ->
  stands (Fround8 (Fsub x (Fmul (FofZ 2) (Fsub x y)))) (2 * v - u).
Proof.
  intros x y u v Sx Sy Du Dv Hu Hv. pose proof (st_err x u Sx ltac:(lra)) as Ex. pose proof (st_err y v Sy ltac:(lra)) as Ey. destruct two as [F2 V2].
  assert (B : Rabs (val x - val y) <= 4194304) by small. destruct (fsub x y (proj1 Sx) (proj1 Sy) (big _ B)) as [K1 K2].
  pose proof (rnd_err _ B) as E. rewrite <- K2 in E. set (d := Fsub x y) in *.
  assert (B' : Rabs (val (FofZ 2) * val d) <= 4194304) by (rewrite V2; small). destruct (fmul _ d F2 K1 (big _ B')) as [L1 L2].
  pose proof (rnd_err _ B') as E'. rewrite <- L2, V2 in E'. set (m := Fmul (FofZ 2) d) in *.
  assert (B'' : Rabs (val x - val m) <= 4194304) by small. destruct (fsub x m (proj1 Sx) L1 (big _ B'')) as [M1 M2].
  pose proof (rnd_err _ B'') as E''. rewrite <- M2 in E''. apply round_to; auto.
  - replace (2 * v - u) with ((v + v) - u) by lra. apply d8_sub; auto. apply d8_add; auto.
  - small.
Qed.

(** * Comparisons of decimals *)
Lemma d8_gap : forall u v, decimal8 u -> decimal8 v -> u < v -> u + 1 / 10 ^ 8 <= v.
Proof. intros u v [a ->] [b ->] H. assert (IZR a < IZR b) as K by lra. apply lt_IZR in K. assert (a + 1 <= b)%Z as K2 by lia. apply IZR_le in K2. rewrite plus_IZR in K2. lra. Qed.
Lemma st_lt : forall x y u v, stands x u -> stands y v -> decimal8 u -> decimal8 v -> Rabs u <= 4194304 -> Rabs v <= 4194304 -> SFltb x y = Rltb u v.
Proof.
  intros x y u v Sx Sy Du Dv Hu Hv. pose proof (st_err x u Sx Hu) as Ex. pose proof (st_err y v Sy Hv) as Ey. rewrite fltb by (apply Sx || apply Sy).
  unfold Rltb. destruct (Rlt_dec u v) as [H|H].
  - apply Rlt_bool_true. pose proof (d8_gap u v Du Dv H). unfold eps in *. apply Rabs_le_inv in Ex, Ey. lra.
  - apply Rlt_bool_false. destruct Sx as [_ ->]. destruct Sy as [_ ->]. unfold nearest. apply round_le; [apply (FLT_exp_valid (-1074) 53)|apply valid_rnd_N|lra].
Qed.
Lemma st_le : forall x y u v, stands x u -> stands y v -> decimal8 u -> decimal8 v -> Rabs u <= 4194304 -> Rabs v <= 4194304 -> SFleb x y = Rleb u v.
Proof.
  intros x y u v Sx Sy Du Dv Hu Hv. pose proof (st_err x u Sx Hu) as Ex. pose proof (st_err y v Sy Hv) as Ey. rewrite fleb by (apply Sx || apply Sy).
  unfold Rleb. destruct (Rle_dec u v) as [H|H].
  - apply Rle_bool_true. destruct Sx as [_ ->]. destruct Sy as [_ ->]. unfold nearest. apply round_le; [apply (FLT_exp_valid (-1074) 53)|apply valid_rnd_N|exact H].
  - apply Rle_bool_false. pose proof (d8_gap v u Dv Du ltac:(lra)). unfold eps in *. apply Rabs_le_inv in Ex, Ey. lra.
Qed.
Lemma st_eq : forall x y u v, stands x u -> stands y v -> decimal8 u -> decimal8 v -> Rabs u <= 4194304 -> Rabs v <= 4194304 -> SFeqb x y = Reqb u v.
Proof.
  intros x y u v Sx Sy Du Dv Hu Hv. pose proof (st_err x u Sx Hu) as Ex. pose proof (st_err y v Sy Hv) as Ey. rewrite feqb by (apply Sx || apply Sy).
  unfold Reqb. destruct (Req_EM_T u v) as [->|H].
  - apply Req_bool_true. destruct Sx as [_ ->]. destruct Sy as [_ ->]. reflexivity.
  - apply Req_bool_false. intros K. destruct (Rtotal_order u v) as [G|[G|G]]; [pose proof (d8_gap u v Du Dv G)|contradiction|pose proof (d8_gap v u Dv Du G)]; unfold eps in *; apply Rabs_le_inv in Ex, Ey; lra.
Qed.
