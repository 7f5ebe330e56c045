(** Binary64 on coordinates that are multiples of 1/256: products are exact, so every decision is. *)
From Coq Require Import ZArith Reals Lra Lia Bool List Permutation Arith Floats.SpecFloat.
From Flocq Require Import Core BinarySingleNaN.
From Verif Require Import Base Arith ArithR ArithF MPoint MLine MPoly MHeap Spec SpecHeap SpecDouble PPoint PLine PShape PConvex POrder PHull PFlocq PHeap PDouble.
Import ListNotations.
Local Open Scope R_scope.
#[local] Existing Instance RA.
#[local] Existing Instance P53.
#[local] Existing Instance P1024.

(** x is k / 2^q. *)
Definition ex (q k : Z) (x : F) : Prop := double x /\ value x = IZR k * bpow radix2 (- q).
Lemma ex_format : forall q k, (0 <= q <= 64)%Z -> (Z.abs k < 2 ^ 53)%Z -> nearest (IZR k * bpow radix2 (- q)) = IZR k * bpow radix2 (- q).
Proof.
  intros q k Q K. unfold nearest. apply round_generic; [apply valid_rnd_N|]. apply generic_format_FLT. exists (Float radix2 k (- q)); [reflexivity|exact K|simpl; lia].
Qed.
Lemma ex_small : forall q k, (0 <= q)%Z -> (Z.abs k < 2 ^ 53)%Z -> Rabs (IZR k * bpow radix2 (- q)) <= bpow radix2 60.
Proof.
  intros q k Q K. rewrite Rabs_mult, <- abs_IZR, (Rabs_pos_eq (bpow _ _)) by apply bpow_ge_0. replace (bpow radix2 60) with (IZR (2 ^ 60) * 1) by (simpl; lra).
  apply Rmult_le_compat; [apply IZR_le; lia|apply bpow_ge_0|apply IZR_le; lia|]. apply (bpow_le radix2 (- q) 0). lia.
Qed.
Lemma ex_add : forall q a b x y, (0 <= q <= 64)%Z -> ex q a x -> ex q b y -> (Z.abs (a + b) < 2 ^ 53)%Z -> ex q (a + b) (Fadd x y).
Proof.
  intros q a b x y Q [Dx Vx] [Dy Vy] K. assert (E : value x + value y = IZR (a + b) * bpow radix2 (- q)) by (rewrite Vx, Vy, plus_IZR; ring).
  destruct (fadd x y Dx Dy) as [K1 K2]; [rewrite E; apply ex_small; lia|]. split; [exact K1|]. rewrite K2, E. apply ex_format; auto.
Qed.
Lemma ex_sub : forall q a b x y, (0 <= q <= 64)%Z -> ex q a x -> ex q b y -> (Z.abs (a - b) < 2 ^ 53)%Z -> ex q (a - b) (Fsub x y).
Proof.
  intros q a b x y Q [Dx Vx] [Dy Vy] K. assert (E : value x - value y = IZR (a - b) * bpow radix2 (- q)) by (rewrite Vx, Vy, minus_IZR; ring).
  destruct (fsub x y Dx Dy) as [K1 K2]; [rewrite E; apply ex_small; lia|]. split; [exact K1|]. rewrite K2, E. apply ex_format; auto.
Qed.
Lemma ex_mul : forall q r a b x y, (0 <= q)%Z -> (0 <= r)%Z -> (q + r <= 64)%Z -> ex q a x -> ex r b y -> (Z.abs (a * b) < 2 ^ 53)%Z -> ex (q + r) (a * b) (Fmul x y).
Proof.
  intros q r a b x y Q1 Q2 Q [Dx Vx] [Dy Vy] K. assert (E : value x * value y = IZR (a * b) * bpow radix2 (- (q + r))).
  { rewrite Vx, Vy, mult_IZR. replace (- (q + r))%Z with (- q + - r)%Z by lia. rewrite bpow_plus. ring. }
  destruct (fmul x y Dx Dy) as [K1 K2]; [rewrite E; apply ex_small; lia|]. split; [exact K1|]. rewrite K2, E. apply ex_format; auto; lia.
Qed.
Lemma ex_zero : forall q, ex q 0 (FofZ 0).
Proof. intros q. split; [split; reflexivity|]. unfold value. simpl. lra. Qed.
Lemma ex_ltb : forall q a b x y, ex q a x -> ex q b y -> SFltb x y = Z.ltb a b.
Proof.
  intros q a b x y [Dx Vx] [Dy Vy]. rewrite fltb by auto. rewrite Vx, Vy. pose proof (bpow_gt_0 radix2 (- q)) as G. destruct (Z.ltb_spec a b) as [H|H].
  - apply Rlt_bool_true. apply Rmult_lt_compat_r; [exact G|apply IZR_lt; exact H].
  - apply Rlt_bool_false. apply Rmult_le_compat_r; [lra|apply IZR_le; exact H].
Qed.
Lemma ex_leb : forall q a b x y, ex q a x -> ex q b y -> SFleb x y = Z.leb a b.
Proof.
  intros q a b x y [Dx Vx] [Dy Vy]. rewrite fleb by auto. rewrite Vx, Vy. pose proof (bpow_gt_0 radix2 (- q)) as G. destruct (Z.leb_spec a b) as [H|H].
  - apply Rle_bool_true. apply Rmult_le_compat_r; [lra|apply IZR_le; exact H].
  - apply Rle_bool_false. apply Rmult_lt_compat_r; [exact G|apply IZR_lt; exact H].
Qed.
Lemma ex_eqb : forall q a b x y, ex q a x -> ex q b y -> SFeqb x y = Z.eqb a b.
Proof.
  intros q a b x y [Dx Vx] [Dy Vy]. rewrite feqb by auto. rewrite Vx, Vy. pose proof (bpow_gt_0 radix2 (- q)) as G. destruct (Z.eqb_spec a b) as [H|H].
  - apply Req_bool_true. congruence.
  - apply Req_bool_false. intros E. apply H. apply eq_IZR. apply Rmult_eq_reg_r with (1 := E). lra.
Qed.
Lemma R_ltb : forall q a b, Rltb (IZR a * bpow radix2 (- q)) (IZR b * bpow radix2 (- q)) = Z.ltb a b.
Proof.
  intros q a b. pose proof (bpow_gt_0 radix2 (- q)) as G. destruct (Z.ltb_spec a b) as [H|H].
  - apply Rltb_true. apply Rmult_lt_compat_r; [exact G|apply IZR_lt; exact H].
  - apply Rltb_false. apply Rmult_le_compat_r; [lra|apply IZR_le; exact H].
Qed.
Lemma R_leb : forall q a b, Rleb (IZR a * bpow radix2 (- q)) (IZR b * bpow radix2 (- q)) = Z.leb a b.
Proof.
  intros q a b. pose proof (bpow_gt_0 radix2 (- q)) as G. destruct (Z.leb_spec a b) as [H|H].
  - apply Rleb_true. apply Rmult_le_compat_r; [lra|apply IZR_le; exact H].
  - apply Rleb_false. apply Rmult_lt_compat_r; [exact G|apply IZR_lt; exact H].
Qed.
Lemma R_eqb : forall q a b, Reqb (IZR a * bpow radix2 (- q)) (IZR b * bpow radix2 (- q)) = Z.eqb a b.
Proof.
  intros q a b. pose proof (bpow_gt_0 radix2 (- q)) as G. destruct (Z.eqb_spec a b) as [H|H].
  - apply Reqb_true. congruence.
  - apply Reqb_false. intros E. apply H. apply eq_IZR. apply Rmult_eq_reg_r with (1 := E). lra.
Qed.
(** The two sides of a comparison of doubles with exact counterparts on the same grid. *)
Definition on (q : Z) (x : F) (u : R) : Prop := exists k, ex q k x /\ u = IZR k * bpow radix2 (- q).
Lemma on_ltb : forall q x y u v, on q x u -> on q y v -> SFltb x y = Rltb u v.
Proof. intros q x y u v (a & Ex & ->) (b & Ey & ->). rewrite (ex_ltb q a b), R_ltb; auto. Qed.
Lemma on_leb : forall q x y u v, on q x u -> on q y v -> SFleb x y = Rleb u v.
Proof. intros q x y u v (a & Ex & ->) (b & Ey & ->). rewrite (ex_leb q a b), R_leb; auto. Qed.
Lemma on_eqb : forall q x y u v, on q x u -> on q y v -> SFeqb x y = Reqb u v.
Proof. intros q x y u v (a & Ex & ->) (b & Ey & ->). rewrite (ex_eqb q a b), R_eqb; auto. Qed.
Lemma on_zero : forall q, on q (FofZ 0) 0.
Proof. intros q. exists 0%Z. split; [apply ex_zero|lra]. Qed.
Lemma on_exactly : forall q x u, on q x u -> exactly x u.
Proof. intros q x u (k & [D V] & ->). split; auto. Qed.

Definition co (k : Z) (x : F) (u : R) : Prop := (Z.abs k <= 2 ^ 24)%Z /\ ex 8 k x /\ u = IZR k * bpow radix2 (- 8).
Lemma co_intro : forall x u, exactly x u -> dyadic u -> exists k, co k x u.
Proof. intros x u [D V] (k & K & ->). exists k. split; [exact K|]. assert (E : IZR k / 256 = IZR k * bpow radix2 (-8)) by (simpl; lra). split; [split; [exact D|rewrite V; exact E]|exact E]. Qed.
Lemma co_on : forall k x u, co k x u -> on 8 x u.
Proof. intros k x u (_ & E & ->). exists k. auto. Qed.
Lemma co_sub : forall a b x y u v, co a x u -> co b y v -> ex 8 (a - b) (Fsub x y) /\ u - v = IZR (a - b) * bpow radix2 (- 8).
Proof. intros a b x y u v (Ka & Ea & ->) (Kb & Eb & ->). split; [apply ex_sub; auto; lia|]. rewrite minus_IZR. ring. Qed.
(** The difference of two products of differences of coordinates. *)
Lemma cross_on : forall a b c d e f g h x1 x2 y1 y2 x3 x4 y3 y4 u1 u2 v1 v2 u3 u4 v3 v4,
  co a x1 u1 -> co b x2 u2 -> co c y1 v1 -> co d y2 v2 -> co e x3 u3 -> co f x4 u4 -> co g y3 v3 -> co h y4 v4 ->
  on 16 (Fsub (Fmul (Fsub x1 x2) (Fsub y1 y2)) (Fmul (Fsub x3 x4) (Fsub y3 y4))) ((u1 - u2) * (v1 - v2) - (u3 - u4) * (v3 - v4)) /\
  on 16 (Fadd (Fmul (Fsub x1 x2) (Fsub y1 y2)) (Fmul (Fsub x3 x4) (Fsub y3 y4))) ((u1 - u2) * (v1 - v2) + (u3 - u4) * (v3 - v4)).
Proof.
  intros a b c d e f g h x1 x2 y1 y2 x3 x4 y3 y4 u1 u2 v1 v2 u3 u4 v3 v4 A B C D E F G H.
  destruct (co_sub _ _ _ _ _ _ A B) as [P1 R1]. destruct (co_sub _ _ _ _ _ _ C D) as [P2 R2]. destruct (co_sub _ _ _ _ _ _ E F) as [P3 R3]. destruct (co_sub _ _ _ _ _ _ G H) as [P4 R4].
  assert (BD : forall m n p q, (Z.abs m <= 2 ^ 24 -> Z.abs n <= 2 ^ 24 -> Z.abs p <= 2 ^ 24 -> Z.abs q <= 2 ^ 24 -> Z.abs ((m - n) * (p - q)) <= 2 ^ 50)%Z).
  { intros m n p q Hm Hn Hp Hq. rewrite Z.abs_mul. replace (2 ^ 50)%Z with (2 ^ 25 * 2 ^ 25)%Z by reflexivity. apply Z.mul_le_mono_nonneg; try apply Z.abs_nonneg; lia. }
  assert (B1 := BD a b c d (proj1 A) (proj1 B) (proj1 C) (proj1 D)). assert (B2 := BD e f g h (proj1 E) (proj1 F) (proj1 G) (proj1 H)).
  assert (M1 : ex (8 + 8) ((a - b) * (c - d)) (Fmul (Fsub x1 x2) (Fsub y1 y2))) by (apply ex_mul; auto; lia).
  assert (M2 : ex (8 + 8) ((e - f) * (g - h)) (Fmul (Fsub x3 x4) (Fsub y3 y4))) by (apply ex_mul; auto; lia).
  assert (Q : bpow radix2 (-16) = bpow radix2 (-8) * bpow radix2 (-8)) by (rewrite <- bpow_plus; reflexivity).
  split; eexists; (split; [((apply ex_sub; [lia|exact M1|exact M2|lia]) || (apply ex_add; [lia|exact M1|exact M2|lia]))|]).
  - rewrite R1, R2, R3, R4. rewrite (minus_IZR ((a - b) * (c - d))), !mult_IZR. change (Z.opp (8 + 8)) with (-16)%Z; change (Z.opp 16) with (-16)%Z; change (Z.opp 8) with (-8)%Z. rewrite Q. ring.
  - rewrite R1, R2, R3, R4. rewrite (plus_IZR ((a - b) * (c - d))), !mult_IZR. change (Z.opp (8 + 8)) with (-16)%Z; change (Z.opp 16) with (-16)%Z; change (Z.opp 8) with (-8)%Z. rewrite Q. ring.
Qed.

(** * Square roots and quotients *)
Lemma sqrt_eq : forall x : B, Fsqrt (B2SF x) = B2SF (Bsqrt mode_NE x).
Proof.
  intros [sx|sx| |sx mx ex Hx]; try reflexivity; [destruct sx; reflexivity|]. destruct sx; [reflexivity|]. simpl. rewrite B2SF_SF2B. unfold Fsqrt, SFsqrt. change fprec with 53%Z. change femax with 1024%Z.
  destruct (SFsqrt_core_binary 53 1024 (Z.pos mx) ex) as [[mz ez] lz]. apply aux_eq.
Qed.
Lemma fsqrt : forall x, double x -> 0 <= value x -> double (Fsqrt x) /\ value (Fsqrt x) = nearest (sqrt (value x)).
Proof.
  intros x Fx P. destruct (fin_B x Fx) as (bx & -> & Gx & Vx). rewrite sqrt_eq, <- Vx in *. destruct (Bsqrt_correct 53 1024 P53 P1024 mode_NE bx) as (C1 & C2 & _).
  assert (G : is_finite (Bsqrt mode_NE bx) = true).
  { rewrite C2. destruct bx as [s|s| |s m e He]; try discriminate; auto. destruct s; auto. exfalso. simpl in P. apply Rle_not_lt in P. apply P. apply F2R_lt_0. reflexivity. }
  destruct (B_fin _ G) as [K1 K2]. split; [exact K1|]. rewrite K2. exact C1.
Qed.
Lemma div_eq : forall x y : B, Fdiv (B2SF x) (B2SF y) = B2SF (Bdiv mode_NE x y).
Proof.
  intros [sx|sx| |sx mx ex Hx] [sy|sy| |sy my ey Hy]; try reflexivity. simpl. rewrite B2SF_SF2B. unfold Fdiv, SFdiv. change fprec with 53%Z. change femax with 1024%Z.
  destruct (SFdiv_core_binary 53 1024 (Z.pos mx) ex (Z.pos my) ey) as [[mz ez] lz]. apply aux_eq.
Qed.
Lemma fdiv : forall x y, double x -> double y -> value y <> 0 -> Rabs (value x / value y) <= bpow radix2 60 -> double (Fdiv x y) /\ value (Fdiv x y) = nearest (value x / value y).
Proof.
  intros x y Fx Fy NZ H. destruct (fin_B x Fx) as (bx & -> & Gx & Vx). destruct (fin_B y Fy) as (b' & -> & Gy & Vy). rewrite div_eq, <- Vx, <- Vy in *.
  pose proof (Bdiv_correct 53 1024 P53 P1024 mode_NE bx b' NZ) as C. pose proof (no_overflow _ H) as N. simpl round_mode in C. rewrite N in C.
  destruct C as (C1 & C2 & _). rewrite Gx in C2. destruct (B_fin _ C2) as [K1 K2]. split; [exact K1|]. rewrite K2. exact C1.
Qed.

(** * Coordinates *)
Lemma dyadic_d8 : forall u, dyadic u -> decimal8 u /\ Rabs u <= 65536.
Proof.
  intros u (k & K & ->). split; [exists (390625 * k)%Z; rewrite mult_IZR; lra|].
  unfold Rdiv. rewrite Rabs_mult, <- abs_IZR, (Rabs_pos_eq (/ 256)) by lra. apply IZR_le in K. change (IZR (2 ^ 24)) with 16777216 in K. lra.
Qed.
Lemma dyadic_stored : forall q, dyadic_pt q -> stored q /\ moderate q.
Proof. intros q [D1 D2]. destruct (dyadic_d8 _ D1) as [K1 K2]. destruct (dyadic_d8 _ D2) as [K3 K4]. split; split; auto; lra. Qed.
Lemma exactly_stands : forall x u, exactly x u -> dyadic u -> stands x u.
Proof.
  intros x u E D. destruct (co_intro x u E D) as (k & K & _ & U). destruct E as [Dx Vx]. split; [exact Dx|]. rewrite Vx, U. symmetry. apply (ex_format 8 k); lia.
Qed.
Lemma exact_stands : forall L (p : pt (FA L)) q, exact_pt p q -> dyadic_pt q -> stands_pt p q.
Proof. intros L p q [E1 E2] [D1 D2]. split; apply exactly_stands; auto. Qed.
Lemma dyadic_gap : forall u v, dyadic u -> dyadic v -> u <> v -> 1 / 256 <= Rabs (u - v).
Proof.
  intros u v (a & _ & ->) (b & _ & ->) N. replace (IZR a / 256 - IZR b / 256) with (IZR (a - b) * / 256) by (rewrite minus_IZR; field). rewrite Rabs_mult, <- abs_IZR, (Rabs_pos_eq (/ 256)) by lra.
  assert (1 <= Z.abs (a - b))%Z as K by (assert (a <> b) by congruence; lia). apply IZR_le in K. lra.
Qed.
Lemma dyadic_clear : forall q1 q2, dyadic_pt q1 -> dyadic_pt q2 -> clear_of q1 q2.
Proof.
  intros [u1 v1] [u2 v2] [D1 D2] [D3 D4]. simpl in *. unfold clear_of. simpl. destruct (Req_EM_T u1 u2) as [->|N].
  - destruct (Req_EM_T v1 v2) as [->|N]; [left; reflexivity|]. right. right. pose proof (dyadic_gap _ _ D2 D4 N). lra.
  - right. left. pose proof (dyadic_gap _ _ D1 D3 N). lra.
Qed.
Lemma pt_answers : forall L (p1 p2 : pt (FA L)) q1 q2, exact_pt p1 q1 -> exact_pt p2 q2 -> dyadic_pt q1 -> dyadic_pt q2 ->
  pt_sameb p1 p2 = pt_sameb q1 q2 /\ lex_ltb p1 p2 = lex_ltb q1 q2 /\ pt_eqb p1 p2 = pt_eqb q1 q2.
Proof.
  intros L p1 p2 q1 q2 E1 E2 D1 D2. destruct (dyadic_stored q1 D1). destruct (dyadic_stored q2 D2). pose proof (exact_stands L p1 q1 E1 D1). pose proof (exact_stands L p2 q2 E2 D2).
  destruct (same_double L p1 p2 q1 q2) as [A B]; auto. split; [exact A|]. split; [exact B|]. apply near_double; auto. apply dyadic_clear; auto.
Qed.
Lemma pt_co : forall L (p : pt (FA L)) q, exact_pt p q -> dyadic_pt q -> exists a b, co a (px p) (px q) /\ co b (py p) (py q).
Proof. intros L p q [E1 E2] [D1 D2]. destruct (co_intro _ _ E1 D1) as [a A]. destruct (co_intro _ _ E2 D2) as [b B]. eauto. Qed.

(** * Products of segments *)
Lemma products : forall L (s t : seg (FA L)) s' t', exact_seg s s' -> exact_seg t t' -> dyadic_seg s' -> dyadic_seg t' ->
  on 16 (crossproduct s t) (crossproduct (A := RA) s' t') /\ on 16 (dotproduct s t) (dotproduct (A := RA) s' t').
Proof.
  intros L [c1 i j] [c2 k l] [c1' i' j'] [c2' k' l'] (_ & E1 & E2) (_ & E3 & E4) [D1 D2] [D3 D4]. simpl in *.
  destruct (pt_co _ _ _ E1 D1) as (a1 & b1 & A1 & B1). destruct (pt_co _ _ _ E2 D2) as (a2 & b2 & A2 & B2). destruct (pt_co _ _ _ E3 D3) as (a3 & b3 & A3 & B3). destruct (pt_co _ _ _ E4 D4) as (a4 & b4 & A4 & B4).
  split; [apply (cross_on _ _ _ _ _ _ _ _ _ _ _ _ _ _ _ _ _ _ _ _ _ _ _ _ A2 A1 B4 B3 B2 B1 A4 A3)|apply (cross_on _ _ _ _ _ _ _ _ _ _ _ _ _ _ _ _ _ _ _ _ _ _ _ _ A2 A1 A4 A3 B2 B1 B4 B3)].
Qed.
Lemma squares : forall L (p q : pt (FA L)) p' q', exact_pt p p' -> exact_pt q q' -> dyadic_pt p' -> dyadic_pt q' ->
  on 16 (Fadd (Fmul (Fsub (px p) (px q)) (Fsub (px p) (px q))) (Fmul (Fsub (py p) (py q)) (Fsub (py p) (py q)))) ((px p' - px q') * (px p' - px q') + (py p' - py q') * (py p' - py q')).
Proof.
  intros L p q p' q' E1 E2 D1 D2. destruct (pt_co _ _ _ E1 D1) as (a1 & b1 & A1 & B1). destruct (pt_co _ _ _ E2 D2) as (a2 & b2 & A2 & B2).
  apply (cross_on _ _ _ _ _ _ _ _ _ _ _ _ _ _ _ _ _ _ _ _ _ _ _ _ A1 A2 A1 A2 B1 B2 B1 B2).
Qed.
Lemma distance_near : forall L (p q : pt (FA L)) p' q', exact_pt p p' -> exact_pt q q' -> dyadic_pt p' -> dyadic_pt q' -> stands (pt_distance p q) (pt_distance (A := RA) p' q').
Proof.
  intros L p q p' q' E1 E2 D1 D2. destruct (on_exactly _ _ _ (squares L p q p' q' E1 E2 D1 D2)) as [K1 K2].
  destruct (fsqrt _ K1) as [F1 F2]; [rewrite K2; pose proof (Rle_0_sqr (px p' - px q')); pose proof (Rle_0_sqr (py p' - py q')); unfold Rsqr in *; ra_simpl; lra|].
  split; [exact F1|]. etransitivity; [exact F2|]. rewrite K2. reflexivity.
Qed.
Lemma norm_near : forall L (s : seg (FA L)) s', exact_seg s s' -> dyadic_seg s' -> stands (norm s) (norm (A := RA) s').
Proof.
  intros L [c i j] [c' i' j'] (_ & E1 & E2) [D1 D2]. apply (distance_near L j i j' i'); auto.
Qed.
Lemma eps_double : forall L, double (EPS (A := FA L)) /\ 99 / 10 ^ 10 <= value (EPS (A := FA L)) <= 101 / 10 ^ 10.
Proof.
  intros L. remember (EPS (A := FA L)) as e eqn:E. vm_compute in E. subst e. split; [split; reflexivity|]. unfold value. simpl. unfold F2R. simpl. lra.
Qed.
Lemma eps_R : EPS (A := RA) = 1 / 10 ^ 8.
Proof. unfold EPS. simpl. lra. Qed.
(** On a grid of 2^-16 only 0 is below EPS. *)
Lemma on_eps : forall L x u, on 16 x u -> SFltb (SFabs x) (EPS (A := FA L)) = Rltb (Rabs u) (1 / 10 ^ 8).
Proof.
  intros L x u (k & [D V] & U). destruct (eps_double L) as [ED EV]. destruct (fabs x D) as [F1 F2]. rewrite fltb, F2, V, <- U by auto.
  change (bpow radix2 (Z.opp 16)) with (/ 65536) in U. destruct (Z.eq_dec k 0) as [->|N].
  - rewrite U, Rmult_0_l, Rabs_R0. rewrite Rlt_bool_true by lra. symmetry. apply Rltb_true. lra.
  - assert (G : / 65536 <= Rabs u).
    { rewrite U, Rabs_mult, <- abs_IZR, (Rabs_pos_eq (/ 65536)) by lra. assert (1 <= Z.abs k)%Z as K by lia. apply IZR_le in K. lra. }
    rewrite Rlt_bool_false by lra. symmetry. apply Rltb_false. lra.
Qed.
Lemma rnd256 : nearest (/ 256) = / 256.
Proof.
  pose proof (ex_format 8 1) as Q. assert (E : IZR 1 * bpow radix2 (Z.opp 8) = / 256) by (change (bpow radix2 (Z.opp 8)) with (/ 256); lra). rewrite E in Q. apply Q; [lia|reflexivity].
Qed.
Lemma distance_zero : forall L (p q : pt (FA L)) p' q', exact_pt p p' -> exact_pt q q' -> dyadic_pt p' -> dyadic_pt q' ->
  SFltb (pt_distance p q) (EPS (A := FA L)) = Rltb (pt_distance (A := RA) p' q') (1 / 10 ^ 8).
Proof.
  intros L p q p' q' E1 E2 D1 D2. destruct (distance_near L p q p' q' E1 E2 D1 D2) as [F1 F2]. destruct (eps_double L) as [ED EV]. set (e := EPS (A := FA L)) in *. clearbody e. rewrite fltb, F2 by auto.
  assert (C := dyadic_clear p' q' D1 D2). assert (G := dyadic_gap). destruct p' as [u1 v1], q' as [u2 v2]. destruct D1 as [D1 D2']. destruct D2 as [D3 D4]. simpl in *.
  assert (PD : pt_distance (@mkpt RA u1 v1) (@mkpt RA u2 v2) = sqrt ((u1 - u2) * (u1 - u2) + (v1 - v2) * (v1 - v2))) by reflexivity. rewrite PD.
  destruct (Req_EM_T u1 u2) as [->|N1]; [destruct (Req_EM_T v1 v2) as [->|N2]|].
  - replace ((u2 - u2) * (u2 - u2) + (v2 - v2) * (v2 - v2)) with 0 by ring. rewrite sqrt_0. unfold nearest. rewrite round_0 by apply valid_rnd_N. rewrite Rlt_bool_true by lra. symmetry. apply Rltb_true. lra.
  - set (X := (u2 - u2) * (u2 - u2) + (v1 - v2) * (v1 - v2)). assert (BG : / 256 <= sqrt X).
    { replace X with (Rsqr (v1 - v2)) by (unfold X, Rsqr; ring). rewrite sqrt_Rsqr_abs. pose proof (G v1 v2 D2' D4 N2). lra. }
    assert (BN : / 256 <= nearest (sqrt X)).
    { rewrite <- rnd256. unfold nearest. apply round_le; [apply (FLT_exp_valid (-1074) 53)|apply valid_rnd_N|exact BG]. }
    rewrite Rlt_bool_false by lra. symmetry. apply Rltb_false. lra.
  - set (X := (u1 - u2) * (u1 - u2) + (v1 - v2) * (v1 - v2)). assert (BG : / 256 <= sqrt X).
    { apply Rle_trans with (sqrt (Rsqr (u1 - u2))); [rewrite sqrt_Rsqr_abs; pose proof (G u1 u2 D1 D3 N1); lra|]. apply sqrt_le_1_alt. unfold X, Rsqr. pose proof (Rle_0_sqr (v1 - v2)) as Q. unfold Rsqr in Q. lra. }
    assert (BN : / 256 <= nearest (sqrt X)).
    { rewrite <- rnd256. unfold nearest. apply round_le; [apply (FLT_exp_valid (-1074) 53)|apply valid_rnd_N|exact BG]. }
    rewrite Rlt_bool_false by lra. symmetry. apply Rltb_false. lra.
Qed.
(** * Predicates of segments *)
Lemma sides : forall L (s t : seg (FA L)) s' t', exact_seg s s' -> exact_seg t t' -> dyadic_seg s' -> dyadic_seg t' ->
  is_parallel s t = is_parallel (A := RA) s' t' /\ is_intersecting s t = is_intersecting (A := RA) s' t'.
Proof.
  intros L s t s' t' E1 E2 D1 D2. destruct (products L s t s' t' E1 E2 D1 D2) as [C _].
  assert (P : is_parallel s t = is_parallel (A := RA) s' t') by (unfold is_parallel; pose proof (on_eqb 16 _ _ _ _ C (on_zero 16)) as Q; simpl; simpl in Q; rewrite Q; reflexivity).
  split; [exact P|]. unfold is_intersecting. rewrite P. reflexivity.
Qed.

(** * Lists of related elements *)
Section Lists.
Context {X Y : Type} (Q : X -> Y -> Prop).
Lemma rel_existsb : forall f g l l', Forall2 Q l l' -> (forall x y, Q x y -> f x = g y) -> existsb f l = existsb g l'.
Proof. intros f g l l' H E. induction H as [|x y l l' H _ IH]; simpl; [reflexivity|]. rewrite (E x y H), IH. reflexivity. Qed.
Lemma rel_forallb : forall f g l l', Forall2 Q l l' -> (forall x y, Q x y -> f x = g y) -> forallb f l = forallb g l'.
Proof. intros f g l l' H E. induction H as [|x y l l' H _ IH]; simpl; [reflexivity|]. rewrite (E x y H), IH. reflexivity. Qed.
Lemma rel_filter : forall f g l l', Forall2 Q l l' -> (forall x y, Q x y -> f x = g y) -> Forall2 Q (filter f l) (filter g l').
Proof. intros f g l l' H E. induction H as [|x y l l' H _ IH]; simpl; [constructor|]. rewrite (E x y H). destruct (g y); auto. Qed.
Lemma rel_memb : forall e e' x y l l', (forall a b c d, Q a b -> Q c d -> e a c = e' b d) -> Q x y -> Forall2 Q l l' -> memb e x l = memb e' y l'.
Proof. intros e e' x y l l' E XY H. induction H as [|a b l l' H _ IH]; simpl; [reflexivity|]. rewrite (E a b x y H XY), IH. reflexivity. Qed.
Lemma rel_dedup : forall e e' l l', (forall a b c d, Q a b -> Q c d -> e a c = e' b d) -> Forall2 Q l l' -> Forall2 Q (dedup e l) (dedup e' l').
Proof.
  intros e e' l l' E H. unfold dedup. assert (G : Forall2 Q [] []) by constructor. revert G. generalize (@nil X) (@nil Y). induction H as [|x y l l' H _ IH]; simpl; intros acc acc' G; [exact G|].
  rewrite (rel_memb e e' x y acc acc' E H G). destruct (memb e' y acc'); apply IH; auto. apply Forall2_app; auto.
Qed.
Lemma rel_inter : forall e e' l l' m m', (forall a b c d, Q a b -> Q c d -> e a c = e' b d) -> Forall2 Q l l' -> Forall2 Q m m' -> Forall2 Q (set_inter e l m) (set_inter e' l' m').
Proof. intros e e' l l' m m' E H K. unfold set_inter. apply rel_filter; [apply rel_dedup; auto|]. intros x y XY. apply rel_memb; auto. Qed.
Lemma rel_insert : forall lt lt' x y l l', (forall a b c d, Q a b -> Q c d -> lt a c = lt' b d) -> Q x y -> Forall2 Q l l' -> Forall2 Q (insert_sorted lt x l) (insert_sorted lt' y l').
Proof. intros lt lt' x y l l' E XY H. induction H as [|a b l l' H G IH]; simpl; [auto|]. rewrite (E a b x y H XY). destruct (lt' b y); auto. Qed.
Lemma rel_sort : forall lt lt' l l', (forall a b c d, Q a b -> Q c d -> lt a c = lt' b d) -> Forall2 Q l l' -> Forall2 Q (sort_by lt l) (sort_by lt' l').
Proof. intros lt lt' l l' E H. induction H as [|x y l l' H _ IH]; simpl; [constructor|]. apply rel_insert; auto. Qed.
Lemma rel_rev : forall l l', Forall2 Q l l' -> Forall2 Q (rev l) (rev l').
Proof. intros l l' H. induction H; simpl; [constructor|]. apply Forall2_app; auto. Qed.
Lemma rel_tl : forall l l', Forall2 Q l l' -> Forall2 Q (tl l) (tl l').
Proof. intros l l' H. destruct H; simpl; auto. Qed.
Lemma rel_pairs : forall l l', Forall2 Q l l' -> Forall2 (fun a b => Q (fst a) (fst b) /\ Q (snd a) (snd b)) (pairs l) (pairs l').
Proof.
  intros l l' H. induction H as [|x y l l' H G IH]; simpl; [constructor|]. destruct G as [|x2 y2 l2 l2' G1 G2]; [constructor|]. constructor; auto.
Qed.
Lemma rel_last : forall l l' x y, Forall2 Q l l' -> Q x y -> Q (last l x) (last l' y).
Proof. intros l l' x y H G. induction H as [|a b l l' H H' IH]; simpl; [exact G|]. destruct H'; [exact H|exact IH]. Qed.
Lemma rel_length : forall l l', Forall2 Q l l' -> length l = length l'.
Proof. intros l l' H. induction H; simpl; congruence. Qed.
End Lists.
Lemma rel_map : forall {X Y X' Y'} (Q : X -> Y -> Prop) (Q' : X' -> Y' -> Prop) f g l l', Forall2 Q l l' -> (forall x y, Q x y -> Q' (f x) (g y)) -> Forall2 Q' (map f l) (map g l').
Proof. intros X Y X' Y' Q Q' f g l l' H E. induction H; simpl; constructor; auto. Qed.

(** The double and the exact Point, segment. *)
Definition ept L (p : pt (FA L)) (q : pt RA) : Prop := exact_pt p q /\ dyadic_pt q.
Definition eseg L (s : seg (FA L)) (t : seg RA) : Prop := exact_seg s t /\ dyadic_seg t.
Lemma eseg_ends : forall L s t, eseg L s t -> sc s = sc t /\ ept L (si s) (si t) /\ ept L (sj s) (sj t).
Proof. intros L s t [(C & E1 & E2) [D1 D2]]. repeat split; auto; (apply E1 || apply E2 || apply D1 || apply D2). Qed.
Lemma eseg_make : forall L s t, sc s = sc t -> ept L (si s) (si t) -> ept L (sj s) (sj t) -> eseg L s t.
Proof. intros L s t C [E1 D1] [E2 D2]. split; split; auto. Qed.
Lemma eseg_ij : forall L s t, eseg L s t -> Forall2 (ept L) (ij s) (ij t).
Proof. intros L s t E. destruct (eseg_ends L s t E) as (_ & E1 & E2). unfold ij. auto. Qed.
Lemma ept_same : forall L a b c d, ept L a b -> ept L c d -> pt_sameb a c = pt_sameb b d.
Proof. intros L a b c d [E1 D1] [E2 D2]. apply (pt_answers L a c b d E1 E2 D1 D2). Qed.
Lemma ept_lex : forall L a b c d, ept L a b -> ept L c d -> lex_ltb a c = lex_ltb b d.
Proof. intros L a b c d [E1 D1] [E2 D2]. apply (pt_answers L a c b d E1 E2 D1 D2). Qed.
Lemma ept_eq : forall L a b c d, ept L a b -> ept L c d -> pt_eqb a c = pt_eqb b d.
Proof. intros L a b c d [E1 D1] [E2 D2]. apply (pt_answers L a c b d E1 E2 D1 D2). Qed.
Lemma eseg_eq : forall L s s' t t', eseg L s s' -> eseg L t t' -> seg_eqb s t = seg_eqb s' t' /\ seg_sameb s t = seg_sameb s' t' /\ isnull s = isnull s'.
Proof.
  intros L s s' t t' E F. destruct (eseg_ends L s s' E) as (C1 & E1 & E2). destruct (eseg_ends L t t' F) as (C2 & F1 & F2). unfold seg_eqb, seg_sameb, isnull. rewrite C1, C2.
  rewrite (ept_eq L _ _ _ _ E1 F1), (ept_eq L _ _ _ _ E2 F2), (ept_same L _ _ _ _ E1 F1), (ept_same L _ _ _ _ E2 F2), (ept_eq L _ _ _ _ E1 E2). auto.
Qed.
Lemma eseg_touch : forall L s s' t t', eseg L s s' -> eseg L t t' -> touch s t = touch s' t' /\ continuous s t = continuous s' t'.
Proof.
  intros L s s' t t' E F. assert (T : touch s t = touch s' t').
  { unfold touch. rewrite (rel_length (ept L) _ _ (rel_inter (ept L) pt_sameb pt_sameb _ _ _ _ (ept_same L) (eseg_ij L s s' E) (eseg_ij L t t' F))). f_equal.
    apply (rel_existsb (ept L)); [apply eseg_ij; exact E|]. intros a a' A. apply (rel_existsb (ept L)); [apply eseg_ij; exact F|]. intros b b' B. destruct A as [A1 A2]. destruct B as [B1 B2].
    pose proof (distance_zero L a b a' b' A1 B1 A2 B2) as Z. rewrite <- eps_R in Z. exact Z. }
  split; [exact T|]. unfold continuous. rewrite T. destruct (eseg_ends L s s' E) as (_ & E1 & E2). destruct (eseg_ends L t t' F) as (_ & F1 & F2).
  rewrite (ept_eq L _ _ _ _ E2 F1), (ept_eq L _ _ _ _ E1 F2). reflexivity.
Qed.
Lemma eseg_cross : forall L s s' p p', eseg L s s' -> ept L p p' ->
  is_point_on_line s p = is_point_on_line (A := RA) s' p' /\ is_point_to_right s p = is_point_to_right (A := RA) s' p' /\ is_point_to_left s p = is_point_to_left (A := RA) s' p'.
Proof.
  intros L s s' p p' E P. destruct (eseg_ends L s s' E) as (C & E1 & E2). assert (F : eseg L (LineSegment (si s) p) (LineSegment (si s') p')) by (apply eseg_make; auto).
  destruct (products L s _ s' _ (proj1 E) (proj1 F) (proj2 E) (proj2 F)) as [K _].
  assert (ON : is_point_on_line s p = is_point_on_line (A := RA) s' p').
  { unfold is_point_on_line. rewrite (ept_eq L _ _ _ _ P E1), (ept_eq L _ _ _ _ P E2). destruct (pt_eqb p' (si s') || pt_eqb p' (sj s')); [reflexivity|]. unfold crossproduct_commonstart, LineSegment. cbn [si sj].
    rewrite (ept_eq L _ _ _ _ E1 E1). destruct (pt_eqb (si s') (si s')); [|reflexivity]. cbn [assert_ bind]. f_equal. pose proof (on_eps L _ _ K) as Q. rewrite <- eps_R in Q. exact Q. }
  assert (RI : is_point_to_right s p = is_point_to_right (A := RA) s' p').
  { unfold is_point_to_right. pose proof (on_ltb 16 _ _ _ _ K (on_zero 16)) as Q1. pose proof (on_ltb 16 _ _ _ _ (on_zero 16) K) as Q2.
    set (x := crossproduct s (LineSegment (si s) p)) in *. set (u := crossproduct s' (LineSegment (si s') p')) in *. cbv zeta. 
    change (@nltb (FA L) x n0) with (SFltb x (FofZ 0)). change (@nltb (FA L) n0 x) with (SFltb (FofZ 0) x). rewrite Q1, Q2. reflexivity. }
  split; [exact ON|]. split; [exact RI|]. unfold is_point_to_left. rewrite ON, RI. reflexivity.
Qed.
Lemma eseg_collinear : forall L s s' t t', eseg L s s' -> eseg L t t' -> is_collinear s t = is_collinear (A := RA) s' t'.
Proof.
  intros L s s' t t' E F. unfold is_collinear, ij. cbn [mapM]. destruct (eseg_ends L t t' F) as (_ & F1 & F2). rewrite (proj1 (eseg_cross L s s' _ _ E F1)), (proj1 (eseg_cross L s s' _ _ E F2)). reflexivity.
Qed.
Lemma eps_cmp : forall L x y u v, exactly x u -> exactly y v -> dyadic u -> dyadic v ->
  SFltb (Fsub x (EPS (A := FA L))) y = Rltb (u - 1 / 10 ^ 8) v /\ SFleb (Fsub x (EPS (A := FA L))) y = Rleb (u - 1 / 10 ^ 8) v /\ SFleb y (Fadd x (EPS (A := FA L))) = Rleb v (u + 1 / 10 ^ 8).
Proof.
  intros L x y u v [Dx Vx] [Dy Vy] Du Dv. destruct (eps_double L) as [ED EV]. set (e := EPS (A := FA L)) in *. clearbody e. destruct (dyadic_d8 u Du) as [_ Bu]. pose proof (dyadic_gap u v Du Dv) as G.
  assert (B1 : Rabs (value x - value e) <= 4194304) by (rewrite Vx; apply Rabs_le_inv in Bu; apply Rabs_le; lra).
  assert (B2 : Rabs (value x + value e) <= 4194304) by (rewrite Vx; apply Rabs_le_inv in Bu; apply Rabs_le; lra).
  destruct (fsub x e Dx ED (big _ B1)) as [S1 S2]. destruct (fadd x e Dx ED (big _ B2)) as [A1 A2]. pose proof (rnd_err _ B1) as Q1. pose proof (rnd_err _ B2) as Q2. rewrite <- S2 in Q1. rewrite <- A2 in Q2.
  rewrite fltb, !fleb by auto. rewrite Vx in Q1, Q2. rewrite Vy. unfold eps in *. apply Rabs_le_inv in Q1, Q2.
  assert (C : u = v \/ u <= v - 1 / 256 \/ v + 1 / 256 <= u).
  { destruct (Req_EM_T u v) as [H|H]; [left; exact H|right]. specialize (G H). unfold Rabs in G. destruct (Rcase_abs (u - v)); [left|right]; lra. }
  unfold Rltb, Rleb. repeat split.
  - destruct (Rlt_dec (u - 1 / 10 ^ 8) v); [apply Rlt_bool_true|apply Rlt_bool_false]; lra.
  - destruct (Rle_dec (u - 1 / 10 ^ 8) v); [apply Rle_bool_true|apply Rle_bool_false]; lra.
  - destruct (Rle_dec v (u + 1 / 10 ^ 8)); [apply Rle_bool_true|apply Rle_bool_false]; lra.
Qed.
Lemma exactly_ltb : forall x y u v, exactly x u -> exactly y v -> SFltb x y = Rltb u v.
Proof.
  intros x y u v [Dx Vx] [Dy Vy]. rewrite fltb, Vx, Vy by auto. unfold Rltb. destruct (Rlt_dec u v); [apply Rlt_bool_true|apply Rlt_bool_false]; lra.
Qed.
Lemma minmax : forall L x y u v, exactly x u -> exactly y v -> dyadic u -> dyadic v ->
  exactly (nmin (A := FA L) x y) (nmin (A := RA) u v) /\ exactly (nmax (A := FA L) x y) (nmax (A := RA) u v) /\ dyadic (nmin (A := RA) u v) /\ dyadic (nmax (A := RA) u v).
Proof.
  intros L x y u v E F Du Dv. unfold nmin, nmax, pymin2, pymax2.
  pose proof (exactly_ltb y x v u F E) as H1. pose proof (exactly_ltb x y u v E F) as H2.
  change (@nltb (FA L) y x) with (SFltb y x). change (@nltb (FA L) x y) with (SFltb x y). rewrite H1, H2. change (@nltb RA v u) with (Rltb v u). change (@nltb RA u v) with (Rltb u v).
  destruct (Rltb v u), (Rltb u v); auto.
Qed.
Lemma eseg_internal : forall L s s' p p', eseg L s s' -> ept L p p' -> ls_is_internal_point s p = ls_is_internal_point (A := RA) s' p'.
Proof.
  intros L s s' p p' E [[P1 P2] [D1 D2]]. destruct (eseg_ends L s s' E) as (_ & [[E1 E2] [E3 E4]] & [[F1 F2] [F3 F4]]). unfold ls_is_internal_point.
  destruct (minmax L _ _ _ _ E1 F1 E3 F3) as (X1 & X2 & X3 & X4). destruct (minmax L _ _ _ _ E2 F2 E4 F4) as (Y1 & Y2 & Y3 & Y4).
  pose proof (eps_cmp L _ _ _ _ X1 P1 X3 D1) as (H1 & _ & _). pose proof (eps_cmp L _ _ _ _ X2 P1 X4 D1) as (_ & _ & H2). pose proof (eps_cmp L _ _ _ _ Y1 P2 Y3 D2) as (_ & H3 & _). pose proof (eps_cmp L _ _ _ _ Y2 P2 Y4 D2) as (_ & _ & H4).
  rewrite <- eps_R in H1, H2, H3, H4. cbv zeta.
  assert (Z : forall a a' b b' c c' d d' : bool, a = a' -> b = b' -> c = c' -> d = d' -> (a && b && (c && d)) = (a' && b' && (c' && d'))) by (intros; subst; reflexivity).
  apply Z; assumption.
Qed.
(** * Polygons *)
Definition epoly L (l : list (seg (FA L))) (l' : list (seg RA)) : Prop := Forall2 (eseg L) l l'.
Lemma epoly_points : forall L l l', epoly L l l' -> Forall2 (ept L) (all_points l) (all_points (A := RA) l') /\ Forall2 (ept L) (point_set l) (point_set (A := RA) l').
Proof.
  intros L l l' E. assert (A : Forall2 (ept L) (all_points l) (all_points (A := RA) l')).
  { unfold all_points. apply rel_sort; [apply ept_lex|]. induction E as [|s t l l' E _ IH]; [constructor|]. change (Forall2 (ept L) (ij s ++ flat_map ij l) (ij t ++ flat_map ij l')). apply Forall2_app; [apply (eseg_ij L s t E)|exact IH]. }
  split; [exact A|]. unfold point_set. apply rel_sort; [apply ept_lex|]. apply rel_dedup; [apply ept_same|exact A].
Qed.
Lemma epoly_continuous : forall L l l', epoly L l l' -> iscontinuous l = iscontinuous (A := RA) l'.
Proof.
  intros L l l' E. unfold iscontinuous. apply (rel_forallb (fun a b => eseg L (fst a) (fst b) /\ eseg L (snd a) (snd b))); [apply rel_pairs; exact E|]. intros [x y] [x' y'] [H1 H2]. apply (eseg_touch L _ _ _ _ H1 H2).
Qed.
Lemma epoly_closed : forall L l l', epoly L l l' -> isclosed l = isclosed (A := RA) l' /\ isopen l = isopen (A := RA) l'.
Proof.
  intros L l l' E. assert (C : isclosed l = isclosed (A := RA) l').
  { unfold isclosed. rewrite (epoly_continuous L l l' E). destruct (iscontinuous l'); [|reflexivity]. destruct E as [|s t l l' E F]; [reflexivity|]. unfold first_point, last_point, first_segment, last_segment, get, last_opt. simpl.
    f_equal. apply (ept_eq L); [apply (eseg_ends L s t E)|]. apply (eseg_ends L). apply rel_last; auto. }
  split; [exact C|]. unfold isopen. rewrite C. reflexivity.
Qed.
Lemma epoly_close : forall L l l', epoly L l l' -> match close l, close (A := RA) l' with Ok r, Ok r' => epoly L r r' | Err e, Err e' => e = e' | _, _ => False end.
Proof.
  intros L l l' E. unfold close. rewrite (proj2 (epoly_closed L l l' E)). destruct (isopen l') as [[|]|e]; simpl; auto. destruct E as [|s t l l' E F]; [reflexivity|].
  unfold first_point, last_point, first_segment, last_segment, get, last_opt. simpl. constructor; [exact E|]. apply Forall2_app; [exact F|]. constructor; [|constructor].
  apply eseg_make; [reflexivity| |]; simpl; [apply (eseg_ends L); apply rel_last; auto|apply (eseg_ends L s t E)].
Qed.

(** * Convex hull *)
Definition epair (p : F * F) (q : R * R) : Prop := exact_pair p q /\ dyadic_pair q.
Lemma epair_pt : forall L p q, epair p q -> ept L (@mkpt (FA L) (fst p) (snd p)) (@mkpt RA (fst q) (snd q)).
Proof. intros L p q [[E1 E2] [D1 D2]]. repeat split; simpl; auto; (apply E1 || apply E2). Qed.
Lemma epair_cross : forall L o a b o' a' b', epair o o' -> epair a a' -> epair b b' -> on 16 (cross (A := FA L) o a b) (cross (A := RA) o' a' b').
Proof.
  intros L o a b o' a' b' O A B. destruct (epair_pt L _ _ O) as [E1 D1]. destruct (epair_pt L _ _ A) as [E2 D2]. destruct (epair_pt L _ _ B) as [E3 D3].
  destruct (pt_co _ _ _ E1 D1) as (a1 & b1 & A1 & B1). destruct (pt_co _ _ _ E2 D2) as (a2 & b2 & A2 & B2). destruct (pt_co _ _ _ E3 D3) as (a3 & b3 & A3 & B3). simpl in *.
  apply (cross_on _ _ _ _ _ _ _ _ _ _ _ _ _ _ _ _ _ _ _ _ _ _ _ _ A2 A1 B3 B1 B2 B1 A3 A1).
Qed.
Lemma epair_cmp : forall L a b c d, epair a b -> epair c d -> pair_eqb (A := FA L) a c = pair_eqb (A := RA) b d /\ pair_ltb (A := FA L) a c = pair_ltb (A := RA) b d.
Proof. intros L a b c d A C. split; [apply (ept_same L _ _ _ _ (epair_pt L _ _ A) (epair_pt L _ _ C))|apply (ept_lex L _ _ _ _ (epair_pt L _ _ A) (epair_pt L _ _ C))]. Qed.
Lemma hull_pop_rel : forall L ch ch' p p', Forall2 epair ch ch' -> epair p p' -> Forall2 epair (hull_pop (A := FA L) ch p) (hull_pop (A := RA) ch' p').
Proof.
  intros L ch ch' p p' H P. induction H as [|a a' r r' A H IH]; [constructor|]. destruct H as [|o o' r r' O H]; [repeat constructor; apply A|].
  pose proof (on_leb 16 _ _ _ _ (epair_cross L _ _ _ _ _ _ O A P) (on_zero 16)) as Q.
  assert (S1 : hull_pop (A := FA L) (a :: o :: r) p = if SFleb (cross (A := FA L) o a p) (FofZ 0) then hull_pop (A := FA L) (o :: r) p else a :: o :: r) by reflexivity.
  assert (S2 : hull_pop (A := RA) (a' :: o' :: r') p' = if Rleb (cross (A := RA) o' a' p') 0 then hull_pop (A := RA) (o' :: r') p' else a' :: o' :: r') by reflexivity.
  rewrite S1, S2, Q. destruct (Rleb _ 0); [exact IH|]. auto.
Qed.
Lemma hull_chain_rel : forall L ps ps', Forall2 epair ps ps' -> Forall2 epair (hull_chain (A := FA L) ps) (hull_chain (A := RA) ps').
Proof.
  intros L ps ps' H. unfold hull_chain. cut (forall (ch : list (F * F)) (ch' : list (R * R)), Forall2 epair ch ch' -> Forall2 epair (fold_left (fun ch p => p :: hull_pop (A := FA L) ch p) ps ch) (fold_left (fun ch p => p :: hull_pop (A := RA) ch p) ps' ch')).
  { intros Z. apply (Z [] []). constructor. }
  induction H as [|p p' ps ps' P _ IH]; intros ch ch' G; [exact G|].
  cbn [fold_left]. apply IH. constructor; [exact P|]. apply hull_pop_rel; auto.
Qed.
Lemma hull_sorted_rel : forall L ps ps', Forall2 epair ps ps' -> Forall2 epair (hull_sorted (A := FA L) ps) (hull_sorted (A := RA) ps').
Proof. intros L ps ps' H. unfold hull_sorted. apply rel_sort; [|apply rel_dedup; [|exact H]]; intros a b c d A C; apply (epair_cmp L a b c d A C). Qed.
Lemma hull_nodes_rel : forall L ps ps', Forall2 epair ps ps' -> Forall2 epair (hull_nodes (A := FA L) ps) (hull_nodes (A := RA) ps').
Proof.
  intros L ps ps' H. unfold hull_nodes. pose proof (hull_sorted_rel L ps ps' H) as G. cbv zeta. apply Forall2_app; apply rel_rev; apply rel_tl; apply hull_chain_rel; [exact G|apply rel_rev; exact G].
Qed.
Lemma round8_id : forall u, decimal8 u -> Rround8 u = u.
Proof. intros u [k ->]. apply Rround8_id. exists k. lra. Qed.
(** Rounding to 8 decimals changes no multiple of 1/256. *)
Lemma round8_exact : forall x u, exactly x u -> dyadic u -> exactly (Fround8 x) (Rround8 u).
Proof.
  intros x u E D. pose proof (exactly_stands x u E D) as St. destruct (dyadic_d8 u D) as [D8 B]. destruct (st_round x u St D8 ltac:(lra)) as [K1 K2]. split; [exact K1|]. rewrite K2.
  destruct St as [_ St]. rewrite <- St. rewrite (proj2 E). symmetry. apply round8_id. exact D8.
Qed.
Lemma point_exact : forall L p q, epair p q -> ept L (@Point_new (FA L) (fst p) (snd p)) (@mkpt RA (fst q) (snd q)) /\ @Point_new RA (fst q) (snd q) = @mkpt RA (fst q) (snd q).
Proof.
  intros L p q [[E1 E2] [D1 D2]]. assert (Z : forall u, dyadic u -> Rround8 u = u) by (intros u D; apply round8_id; apply (dyadic_d8 u D)).
  pose proof (round8_exact _ _ E1 D1) as K1. pose proof (round8_exact _ _ E2 D2) as K2. rewrite Z in K1, K2 by auto. split.
  - split; split; simpl; auto.
  - unfold Point_new. simpl. rewrite !Z by auto. reflexivity.
Qed.
Lemma nodes_rel : forall L ps ps', Forall2 epair ps ps' -> epoly L (polygon_from_nodes (A := FA L) ps false) (polygon_from_nodes (A := RA) ps' false).
Proof.
  intros L ps ps' H. unfold polygon_from_nodes, epoly.
  assert (G : Forall2 (ept L) (map (fun '(x, y) => @Point_new (FA L) x y) ps) (map (fun '(x, y) => @Point_new RA x y) ps')).
  { apply (rel_map epair); [exact H|]. intros [a b] [c d] P. destruct (point_exact L _ _ P) as [K1 K2]. simpl in *. rewrite K2. exact K1. }
  apply (rel_map (fun a b => ept L (fst a) (fst b) /\ ept L (snd a) (snd b))); [apply rel_pairs; exact G|]. intros [p q] [p' q'] [P Q]. apply eseg_make; auto.
Qed.
Lemma hull_rel : forall L ps ps', Forall2 epair ps ps' ->
  match convex_hull (A := FA L) ps, convex_hull (A := RA) ps' with Ok None, Ok None => True | Ok (Some r), Ok (Some r') => epoly L r r' | Err e, Err e' => e = e' | _, _ => False end.
Proof.
  intros L ps ps' H. unfold convex_hull. assert (LE : length (hull_sorted (A := FA L) ps) = length (hull_sorted (A := RA) ps')) by exact (rel_length _ _ _ (hull_sorted_rel L ps ps' H)). rewrite LE. destruct (Nat.leb _ 1); [exact I|].
  pose proof (epoly_close L _ _ (nodes_rel L _ _ (hull_nodes_rel L ps ps' H))) as C. destruct (close (polygon_from_nodes (A := FA L) _ _)), (close (polygon_from_nodes (A := RA) _ _)); simpl; auto.
Qed.

(** * The properties *)
(*@ C88_products *)
(** C88: cross and dot product of two segments are computed without any error; a distance and a length
    are the double nearest to the exact one. *)
Lemma products_exact : forall L (s t : seg (FA L)) (s' t' : seg RA), exact_seg s s' -> exact_seg t t' -> dyadic_seg s' -> dyadic_seg t' ->
  let dx (u : seg RA) := px (sj u) - px (si u) in let dy (u : seg RA) := py (sj u) - py (si u) in
  exactly (crossproduct s t) (dx s' * dy t' - dy s' * dx t') /\ exactly (dotproduct s t) (dx s' * dx t' + dy s' * dy t') /\
  stands (norm s) (sqrt (dx s' * dx s' + dy s' * dy s')).
Proof.
  intros L s t s' t' E1 E2 D1 D2 dx dy. destruct (products L s t s' t' E1 E2 D1 D2) as [A B]. split; [apply (on_exactly _ _ _ A)|]. split; [apply (on_exactly _ _ _ B)|]. apply (norm_near L s s' E1 D1).
Qed.
(*@ C88_distance *)
(** C88: the distance of two Points is the double nearest to the exact one. *)
Lemma distance_exact : forall L (p q : pt (FA L)) (p' q' : pt RA), exact_pt p p' -> exact_pt q q' -> dyadic_pt p' -> dyadic_pt q' -> stands (pt_distance p q) (dist p' q').
Proof.
  intros L p q p' q' E1 E2 D1 D2. pose proof (distance_near L p q p' q' E1 E2 D1 D2) as H. replace (dist p' q') with (pt_distance p' q'); [exact H|]. rewrite pt_distance_R. unfold dist. f_equal. ra_simpl. ring.
Qed.
Lemma eq_dyadic : forall p q : pt RA, dyadic_pt p -> dyadic_pt q -> (pt_eqb p q = true <-> p = q).
Proof.
  intros p q D1 D2. split; [|intros ->; apply pt_eqb_refl]. intros H. destruct (dyadic_clear p q D1 D2) as [C|C]; [exact C|exfalso].
  unfold pt_eqb in H. apply andb_true_iff in H. destruct H as [H1 H2]. ra_simpl. apply Rltb_true in H1, H2. unfold pt_tol, EPS in *. ra_simpl. lra.
Qed.
Lemma on16_zero : forall x u, on 16 x u -> Rabs u < 1 / 100000000 -> u = 0.
Proof.
  intros x u (k & _ & U) H. change (bpow radix2 (Z.opp 16)) with (/ 65536) in U. destruct (Z.eq_dec k 0) as [->|N]; [lra|exfalso].
  rewrite U, Rabs_mult, <- abs_IZR, (Rabs_pos_eq (/ 65536)) in H by lra. assert (1 <= Z.abs k)%Z as K by lia. apply IZR_le in K. lra.
Qed.
(*@ C88_side *)
(** C88: on which side of a segment a Point lies is decided exactly, and exactly one of the three
    answers is given. *)
Lemma side_exact : forall L (s : seg (FA L)) (p : pt (FA L)) (s' : seg RA) (p' : pt RA), exact_seg s s' -> exact_pt p p' -> dyadic_seg s' -> dyadic_pt p' ->
  exists on left, is_point_on_line s p = Ok on /\ is_point_to_left s p = Ok left /\
    (on = true <-> orient (si s') (sj s') p' = 0) /\ (left = true <-> 0 < orient (si s') (sj s') p') /\ (is_point_to_right s p = true <-> orient (si s') (sj s') p' < 0).
Proof.
  intros L s p s' p' E P D Dp. destruct (eseg_cross L s s' p p' (conj E D) (conj P Dp)) as (C1 & C2 & C3). rewrite C1, C2, C3. clear C1 C2 C3.
  unfold is_point_to_left. rewrite on_line_R. cbn [bind].
  assert (ON : pt_eqb p' (si s') || pt_eqb p' (sj s') || Rltb (Rabs (orient (si s') (sj s') p')) (1 / 100000000) = true <-> orient (si s') (sj s') p' = 0).
  { rewrite !orb_true_iff, !eq_dyadic, Rltb_true by (auto; apply D). split.
    - intros [[-> | ->]|H]; [unfold orient; ring|unfold orient; ring|].
      assert (F : eseg L (LineSegment (si s) p) (LineSegment (si s') p')) by (apply eseg_make; [reflexivity| |split; auto]; split; [apply E|apply D]).
      destruct (products L s _ s' _ E (proj1 F) D (proj2 F)) as [K _]. apply (on16_zero _ _ K). exact H.
    - intros ->. right. rewrite Rabs_R0. lra. }
  eexists _, _. split; [reflexivity|]. split; [reflexivity|]. split; [exact ON|]. split; [|apply right_iff].
  destruct (pt_eqb p' (si s') || pt_eqb p' (sj s') || Rltb (Rabs (orient (si s') (sj s') p')) (1 / 100000000)).
  - split; [discriminate|]. intros H. destruct ON as [ON _]. specialize (ON eq_refl). lra.
  - pose proof (right_iff s' p') as RI. destruct (is_point_to_right s' p'); simpl; split; intros H; try discriminate; auto.
    + destruct RI as [RI _]. specialize (RI eq_refl). lra.
    + destruct ON as [_ ON]. destruct RI as [_ RI]. destruct (Rtotal_order 0 (orient (si s') (sj s') p')) as [G|[G|G]]; [exact G|symmetry in G; specialize (ON G); discriminate|specialize (RI G); discriminate].
Qed.
(*@ C88_relations *)
(** C88: parallel, collinear, touching, continuous and equal segments, null segments, and Points inside
    the bounding box are told exactly, without any tolerance. *)
Lemma relations_exact : forall L (s t : seg (FA L)) (p : pt (FA L)) (s' t' : seg RA) (p' : pt RA), exact_seg s s' -> exact_seg t t' -> exact_pt p p' -> dyadic_seg s' -> dyadic_seg t' -> dyadic_pt p' ->
  (is_parallel s t = true <-> (px (sj s') - px (si s')) * (py (sj t') - py (si t')) = (py (sj s') - py (si s')) * (px (sj t') - px (si t'))) /\
  is_intersecting s t = negb (is_parallel s t) /\
  (exists col, is_collinear s t = Ok col /\ (col = true <-> orient (si s') (sj s') (si t') = 0 /\ orient (si s') (sj s') (sj t') = 0)) /\
  (touch s t = true <-> si s' = si t' \/ si s' = sj t' \/ sj s' = si t' \/ sj s' = sj t') /\
  (continuous s t = true <-> sj s' = si t' \/ si s' = sj t') /\
  (seg_eqb s t = true <-> s' = t') /\ (seg_sameb s t = true <-> s' = t') /\ (isnull s = true <-> si s' = sj s') /\
  (ls_is_internal_point s p = true <-> Rmin (px (si s')) (px (sj s')) <= px p' <= Rmax (px (si s')) (px (sj s')) /\ Rmin (py (si s')) (py (sj s')) <= py p' <= Rmax (py (si s')) (py (sj s'))).
Proof.
  intros L s t p s' t' p' E F P D G Dp. assert (ES : eseg L s s') by (split; auto). assert (ET : eseg L t t') by (split; auto). assert (EP : ept L p p') by (split; auto).
  destruct (sides L s t s' t' E F D G) as [S1 S2]. destruct (eseg_touch L _ _ _ _ ES ET) as [T1 T2]. destruct (eseg_eq L _ _ _ _ ES ET) as (Q1 & Q2 & Q3).
  assert (TT : touch s' t' = true <-> si s' = si t' \/ si s' = sj t' \/ sj s' = si t' \/ sj s' = sj t').
  { rewrite touch_near. assert (NE : forall a b : pt RA, dyadic_pt a -> dyadic_pt b -> pt_distance a b < 1 / 100000000 -> a = b).
    { intros [xa ya] [xb yb] Da Db H. destruct (dyadic_clear _ _ Da Db) as [C|C]; [exact C|exfalso]. rewrite pt_distance_R in H. simpl in *. apply Rlt_not_le in H. apply H. clear H.
      destruct C as [C|C].
      - apply Rle_trans with (sqrt (Rsqr (xa - xb))); [rewrite sqrt_Rsqr_abs; lra|]. apply sqrt_le_1_alt. pose proof (Rle_0_sqr (ya - yb)) as Q. unfold Rsqr in *. ra_simpl. lra.
      - apply Rle_trans with (sqrt (Rsqr (ya - yb))); [rewrite sqrt_Rsqr_abs; lra|]. apply sqrt_le_1_alt. pose proof (Rle_0_sqr (xa - xb)) as Q. unfold Rsqr in *. ra_simpl. lra. }
    assert (ZZ : forall a : pt RA, pt_distance a a < 1 / 100000000) by (intros a; pose proof (pt_distance_R a a) as Q; replace (_ + _) with 0 in Q by (ra_simpl; ring); rewrite sqrt_0 in Q; rewrite Q; lra).
    destruct D as [D1 D2]. destruct G as [G1 G2]. split.
    - intros (a & b & Ia & Ib & H). unfold ij in Ia, Ib. simpl in Ia, Ib. destruct Ia as [<-|[<-|[]]]; destruct Ib as [<-|[<-|[]]]; apply NE in H; auto.
    - unfold ij. simpl. intros [H|[H|[H|H]]]; [exists (si s'), (si t')|exists (si s'), (sj t')|exists (sj s'), (si t')|exists (sj s'), (sj t')]; rewrite H; repeat split; auto; (rewrite <- H; auto) || auto. }
  split; [rewrite S1, is_parallel_iff; unfold crossproduct, delta_x, delta_y; ra; split; intros; lra|]. split; [reflexivity|]. split.
  { destruct (side_exact L s (si t) s' (si t') E (proj1 (proj2 F)) D (proj1 G)) as (o1 & _ & O1 & _ & H1 & _). destruct (side_exact L s (sj t) s' (sj t') E (proj2 (proj2 F)) D (proj2 G)) as (o2 & _ & O2 & _ & H2 & _).
    unfold is_collinear, ij. cbn [mapM]. rewrite O1, O2. cbn [bind]. eexists. split; [reflexivity|]. simpl. rewrite andb_true_r, andb_true_iff, H1, H2. reflexivity. }
  split; [rewrite T1; exact TT|]. split.
  { rewrite T2. unfold continuous. destruct (pt_eqb (sj s') (si t') || pt_eqb (si s') (sj t')) eqn:Q.
    - assert (H : sj s' = si t' \/ si s' = sj t') by (apply orb_true_iff in Q; rewrite !eq_dyadic in Q by (apply D || apply G); exact Q). destruct (touch s' t') eqn:K; [split; auto|]. exfalso. assert (false = true) by (apply TT; destruct H; auto). discriminate.
    - assert (H : ~ (sj s' = si t' \/ si s' = sj t')) by (intros H; rewrite <- !eq_dyadic, <- orb_true_iff in H by (apply D || apply G); congruence). destruct (touch s' t'); split; intros; (discriminate || contradiction). }
  split.
  { rewrite Q1. unfold seg_eqb. rewrite !andb_true_iff, !eq_dyadic by (apply D || apply G). destruct s' as [c a b], t' as [c' a' b']. simpl. split; [|intros K; injection K as -> -> ->; repeat split; destruct c'; reflexivity].
    intros [[K1 ->] ->]. f_equal. destruct c, c'; (reflexivity || discriminate). }
  split.
  { rewrite Q2. unfold seg_sameb. rewrite !andb_true_iff, !pt_sameb_iff. destruct s' as [c a b], t' as [c' a' b']. simpl. split; [|intros K; injection K as -> -> ->; repeat split; destruct c'; reflexivity].
    intros [[K1 ->] ->]. f_equal. destruct c, c'; (reflexivity || discriminate). }
  split; [rewrite Q3; unfold isnull; apply eq_dyadic; apply D|].
  rewrite (eseg_internal L s s' p p' ES EP), internal_iff_R. destruct D as [[D1 D2] [D3 D4]]. destruct Dp as [P1 P2].
  assert (MM : forall u v, dyadic u -> dyadic v -> dyadic (Rmin u v) /\ dyadic (Rmax u v)) by (intros u v A B; unfold Rmin, Rmax; destruct (Rle_dec u v); auto).
  assert (CC : forall u v, dyadic u -> dyadic v -> u = v \/ u <= v - 1 / 256 \/ v + 1 / 256 <= u).
  { intros u v A B. destruct (Req_EM_T u v) as [H|H]; [left; exact H|right]. pose proof (dyadic_gap u v A B H) as K. unfold Rabs in K. destruct (Rcase_abs (u - v)); [left|right]; lra. }
  destruct (MM _ _ D1 D3) as [X1 X2]. destruct (MM _ _ D2 D4) as [Y1 Y2].
  pose proof (CC _ _ X1 P1) as A1. pose proof (CC _ _ X2 P1) as A2. pose proof (CC _ _ Y1 P2) as A3. pose proof (CC _ _ Y2 P2) as A4. clear - A1 A2 A3 A4. split; intros [[H1 H2] [H3 H4]]; repeat split; lra.
Qed.
Lemma epoly_intro : forall L l l', Forall2 exact_seg l l' -> Forall dyadic_seg l' -> epoly L l l'.
Proof. intros L l l' H D. induction H as [|s t l l' H _ IH]; [constructor|]. inversion D; subst. constructor; [split; auto|apply IH; auto]. Qed.
Lemma ept_elim : forall L l l', Forall2 (ept L) l l' -> Forall2 exact_pt l l'.
Proof. intros L l l' H. induction H as [|p q l l' [H _] _ IH]; constructor; auto. Qed.
(*@ C88_polygon *)
(** C88: whether a chain of segments is continuous, closed or open is decided as with exact numbers, and
    its points and its point set are the exact ones, in the same order. *)
Lemma polygon_exact : forall L (l : list (seg (FA L))) (l' : list (seg RA)), Forall2 exact_seg l l' -> Forall dyadic_seg l' ->
  iscontinuous l = iscontinuous l' /\ isclosed l = isclosed l' /\ isopen l = isopen l' /\
  Forall2 exact_pt (all_points l) (all_points l') /\ Forall2 exact_pt (point_set l) (point_set l') /\
  (iscontinuous l = true <-> forall s t, In (s, t) (pairs l') -> sj s = si t \/ si s = sj t).
Proof.
  intros L l l' H D. pose proof (epoly_intro L l l' H D) as E. destruct (epoly_closed L l l' E) as [C1 C2]. destruct (epoly_points L l l' E) as [P1 P2].
  split; [apply (epoly_continuous L l l' E)|]. split; [exact C1|]. split; [exact C2|]. split; [apply (ept_elim L); exact P1|]. split; [apply (ept_elim L); exact P2|].
  unfold iscontinuous. pose proof (rel_pairs _ _ _ E) as RP. clear - RP. induction RP as [|[a b] [c d] m m' [Q1 Q2] _ IH]; simpl; [split; [intros _ s t []|reflexivity]|]. rewrite andb_true_iff, IH. simpl in *.
  destruct (relations_exact L a b (si a) c d (si c) (proj1 Q1) (proj1 Q2) (proj1 (proj2 (proj1 Q1))) (proj2 Q1) (proj2 Q2) (proj1 (proj2 Q1))) as (_ & _ & _ & _ & K & _). rewrite K. split.
  - intros [H1 H2] s t [I|I]; [injection I as <- <-; exact H1|apply H2; exact I].
  - intros H0. split; [apply H0; left; reflexivity|]. intros s t I. apply H0. right. exact I.
Qed.
Lemma epair_intro : forall ps qs, Forall2 exact_pair ps qs -> Forall dyadic_pair qs -> Forall2 epair ps qs.
Proof. intros ps qs H D. induction H as [|p q ps qs H _ IH]; [constructor|]. inversion D; subst. constructor; [split; auto|apply IH; auto]. Qed.
(*@ C88_hull *)
(** C88: the convex hull of doubles that are multiples of 1/256: with fewer than two distinct points no
    polygon is returned, otherwise the result is, without any error, the closed path through the
    corners of the hull, counter-clockwise from the lexicographically smallest point, every input
    point on or left of every edge, turning left strictly at every corner unless all points are
    collinear. *)
Lemma hull_exact : forall L (ps : list (F * F)) (qs : list (R * R)), Forall2 exact_pair ps qs -> Forall dyadic_pair qs ->
  let pts : list (pt RA) := map (fun q => @mkpt RA (fst q) (snd q)) qs in
  let collinear := forall a b c, In a pts -> In b pts -> In c pts -> orient a b c = 0 in
  (~ (exists p q, In p pts /\ In q pts /\ p <> q) -> convex_hull (A := FA L) ps = Ok None) /\
  ((exists p q, In p pts /\ In q pts /\ p <> q) ->
   exists v vs hull, convex_hull (A := FA L) ps = Ok (Some hull) /\ Forall2 exact_seg hull (cycle_poly (v :: vs)) /\
     NoDup (v :: vs) /\ incl (v :: vs) pts /\
     (forall p, In p pts -> px v < px p \/ (px v = px p /\ py v <= py p)) /\
     (forall a b p, In (a, b) (cycle_edges (v :: vs)) -> In p pts -> 0 <= orient a b p) /\
     (collinear -> length (v :: vs) = 2%nat) /\
     (~ collinear -> (3 <= length (v :: vs))%nat /\ 0 < shoelace (v :: vs) /\
        forall a b c, In (a, b) (cycle_edges (v :: vs)) -> In (b, c) (cycle_edges (v :: vs)) -> 0 < orient a b c)).
Proof.
  intros L ps qs H D pts collinear. pose proof (hull_rel L ps qs (epair_intro ps qs H D)) as HR.
  assert (DP : forall p, In p pts -> dyadic_pt p).
  { intros p I. unfold pts in I. apply in_map_iff in I. destruct I as (q & <- & I). rewrite Forall_forall in D. destruct (D q I). split; auto. }
  split.
  - intros N. pose proof (proj2 (hull_few qs)) as Fw. rewrite Fw in HR; [|intros ([x1 y1] & [x2 y2] & I1 & I2 & I3); apply N; exists (@mkpt RA x1 y1), (@mkpt RA x2 y2); split; [apply (in_map (fun q => @mkpt RA (fst q) (snd q)) qs (x1, y1) I1)|]; split; [apply (in_map (fun q => @mkpt RA (fst q) (snd q)) qs (x2, y2) I2)|]; congruence].
    destruct (convex_hull (A := FA L) ps) as [[r|]|]; [destruct HR|reflexivity|destruct HR].
  - intros N. destruct (hull_spec qs) as (v & vs & HS).
    + intros p I. apply (proj1 (dyadic_stored p (DP p I))).
    + intros p q Ip Iq Hx Hy. destruct (dyadic_clear p q (DP p Ip) (DP q Iq)) as [C|[C|C]]; [exact C|lra|lra].
    + exact N.
    + cbv zeta in HS. destruct HS as (K1 & K2 & K3 & K4 & K5 & _ & _ & K6 & K7). rewrite K1 in HR.
      destruct (convex_hull (A := FA L) ps) as [[r|]|]; [|destruct HR|destruct HR]. exists v, vs, r. split; [reflexivity|].
      split; [clear - HR; unfold epoly in HR; induction HR as [|s t l l' [E _] _ IH]; constructor; auto|].
      split; [exact K2|]. split; [exact K3|]. split; [exact K4|]. split; [exact K5|]. split; [intros C; apply (K6 C)|]. intros C. destruct (K7 C) as (Y1 & _ & _ & Y2 & Y3). auto.
Qed.
(*@ C88_parallel_refuted *)
(** C88, limit: with decimals that are no multiples of a power of two exactness is lost: (0,0)-(0.1,0.3)
    and (0,0)-(0.3,0.9) lie on one line but are not parallel for the program, and their common part is
    reported to be a Point.  Coordinates that are too large have the same effect in the other
    direction: (2^27+1, 2^27) and (2^27, 2^27-1) are not parallel, but are for the program. *)
Lemma parallel_refuted : forall L : Libm,
  let P x y : pt (FA L) := Point_new (A := FA L) x y in
  let o := P (FofZ 0) (FofZ 0) in
  let s := LineSegment o (P (Fdec 1 10) (Fdec 3 10)) in let t := LineSegment o (P (Fdec 3 10) (Fdec 9 10)) in
  let u := LineSegment o (P (FofZ 134217729) (FofZ 134217728)) in let v := LineSegment o (P (FofZ 134217728) (FofZ 134217727)) in
  is_parallel s t = false /\ is_collinear s t = Ok true /\ common_part_type s t = Ok TPoint /\
  is_parallel u v = true /\ (134217729 * 134217727 <> 134217728 * 134217728)%Z.
Proof. intros L P o s t u v. repeat (split; [vm_compute; reflexivity|]). discriminate. Qed.
Lemma exactly_dec : forall x u, double x -> value x = u -> exactly x u.
Proof. intros x u D V. split; auto. Qed.
Ltac edec := apply exactly_dec; [split; reflexivity|unfold value; simpl; unfold F2R; simpl; lra].
Lemma dyadic_of : forall k u, (Z.abs k <= 2 ^ 24)%Z -> u = IZR k / 256 -> dyadic u.
Proof. intros k u K E. exists k. auto. Qed.
(*@ex C88_example *)
(** C88: six points, one repeated, one inside, one on an edge, with a coordinate 5/2: the hypotheses
    hold, the points are not collinear, and the hull is the triangle. *)
Lemma exact_example : forall L : Libm,
  let ps := [(FofZ 4, FofZ 0); (FofZ 1, FofZ 1); (FofZ 0, FofZ 0); (Fdec 5 2, FofZ 0); (FofZ 0, FofZ 3); (FofZ 0, FofZ 0)] in
  let qs := [(4, 0); (1, 1); (0, 0); (5 / 2, 0); (0, 3); (0, 0)] in
  Forall2 exact_pair ps qs /\ Forall dyadic_pair qs /\
  match convex_hull (A := FA L) ps with
  | Ok (Some hull) => map (fun s : seg (FA L) => ((px (si s), py (si s)) : F * F, (px (sj s), py (sj s)) : F * F)) hull =
      [((FofZ 0, FofZ 0), (FofZ 4, FofZ 0)); ((FofZ 4, FofZ 0), (FofZ 0, FofZ 3)); ((FofZ 0, FofZ 3), (FofZ 0, FofZ 0))]
  | _ => False
  end.
Proof.
  intros L. split; [|split; [|vm_compute; reflexivity]].
  - assert (Z0 : exactly (FofZ 0) 0) by edec. assert (Z1 : exactly (FofZ 1) 1) by edec. assert (Z3 : exactly (FofZ 3) 3) by edec. assert (Z4 : exactly (FofZ 4) 4) by edec. assert (Z5 : exactly (Fdec 5 2) (5 / 2)) by edec.
    repeat (apply Forall2_cons; [split; assumption|]). apply Forall2_nil.
  - assert (Z0 : dyadic 0) by (apply (dyadic_of 0); [lia|lra]). assert (Z1 : dyadic 1) by (apply (dyadic_of 256); [lia|lra]). assert (Z3 : dyadic 3) by (apply (dyadic_of 768); [lia|lra]). assert (Z4 : dyadic 4) by (apply (dyadic_of 1024); [lia|lra]). assert (Z5 : dyadic (5 / 2)) by (apply (dyadic_of 640); [lia|lra]).
    repeat (apply Forall_cons; [split; assumption|]). apply Forall_nil.
Qed.
