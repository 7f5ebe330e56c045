(** A standing vessel with whole sizes in binary64. *)
From Coq Require Import ZArith Reals Lra Lia Bool List Permutation Arith Floats.SpecFloat.
From Flocq Require Import Core.
From Verif Require Import Base Arith ArithR ArithF MPoint MLine MPoly MHeap MVessel MGroup Spec SpecGroup SpecLoops SpecRing SpecHeap SpecDouble SpecWhole SpecStack SpecStackWhole
  PPoint PFlocq PHeap PDouble PExact.
From Verif Require Import PWhole.
From Verif Require PStack PPlainWhole.
Import ListNotations.
Local Open Scope R_scope.
#[local] Existing Instance RA.

Lemma wh_ofZ : forall k, (Z.abs k <= 2 ^ 24)%Z -> wh k (FofZ k) (IZR k).
Proof. intros k K. destruct (FofZ_exact k K) as [D V]. split; [apply ex0_intro; auto|reflexivity]. Qed.
Lemma wh_div : forall n k x u, wh (n * k) x u -> (1 <= n <= 1000)%Z -> (Z.abs k <= 2 ^ 24)%Z -> wh k (Fdiv x (FofZ n)) (u / IZR n).
Proof.
  intros n k x u [E ->] N K. destruct (ex0 _ _ E) as [D V]. destruct (FofZ_exact n ltac:(lia)) as [D2 V2].
  assert (N0 : IZR n <> 0) by (apply not_0_IZR; lia).
  assert (Q : value x / value (FofZ n) = IZR k) by (rewrite V, V2, mult_IZR; field; auto).
  assert (B : Rabs (IZR k) <= bpow radix2 60) by (pose proof (ex_small 0 k ltac:(lia) ltac:(lia)) as X; replace (IZR k * bpow radix2 (- 0)) with (IZR k) in X by (simpl; lra); exact X).
  assert (R : nearest (IZR k) = IZR k) by (pose proof (ex_format 0 k ltac:(lia) ltac:(lia)) as X; replace (IZR k * bpow radix2 (- 0)) with (IZR k) in X by (simpl; lra); exact X).
  destruct (fdiv x (FofZ n) D D2) as [K1 K2]; [rewrite V2; auto|rewrite Q; auto|].
  split; [apply ex0_intro; auto; rewrite K2, Q, R; reflexivity|]. rewrite mult_IZR. field. auto.
Qed.
Lemma wh_opp : forall k x u, wh k x u -> wh (- k) (SFopp x) (- u).
Proof.
  intros k x u [E ->]. destruct (ex0 _ _ E) as [D V]. split; [|rewrite opp_IZR; reflexivity]. apply ex0_intro.
  - destruct D as [D1 D2]. destruct x; split; auto.
  - rewrite opp_IZR, <- V. unfold value. destruct x; simpl; try lra. unfold F2R. simpl. destruct s; simpl; rewrite ?opp_IZR; try lra.
    + change (IZR (Z.neg m)) with (- IZR (Z.pos m)). lra.
    + change (IZR (Z.neg m)) with (- IZR (Z.pos m)). lra.
Qed.
Definition zp (L : Libm) (a b : Z) (p : pt (FA L)) (q : pt RA) : Prop := wh a (px p) (px q) /\ wh b (py p) (py q).
Lemma zp_new : forall L a b x y u v, wh a x u -> wh b y v -> (Z.abs a <= 4000)%Z -> (Z.abs b <= 4000)%Z -> zp L a b (Point_new (A := FA L) x y) (Point_new (A := RA) u v).
Proof.
  assert (K : forall k x u, wh k x u -> (Z.abs k <= 4000)%Z -> wh k (Fround8 x) (Rround8 u)).
  { intros k x u [E ->] K. destruct (ex0 _ _ E) as [D V]. assert (DY : dyadic (IZR k)) by (exists (k * 256)%Z; split; [lia|]; rewrite mult_IZR; lra).
    assert (I : Rround8 (IZR k) = IZR k) by (apply round8_id; apply (dyadic_d8 _ DY)).
    destruct (round8_exact x (IZR k) (conj D V) DY) as [K1 K2]. rewrite I in *. split; auto. apply ex0_intro; auto. }
  intros L a b x y u v H1 H2 A B. split; apply K; auto.
Qed.
Definition zs (L : Libm) (s : seg (FA L)) (t : seg RA) : Prop := exact_seg s t /\ whole_seg t.
Lemma zs_intro : forall L a b c d p q p' q' k, zp L a b p p' -> zp L c d q q' -> (Z.abs a <= 2000)%Z -> (Z.abs b <= 2000)%Z -> (Z.abs c <= 2000)%Z -> (Z.abs d <= 2000)%Z ->
  zs L (mkseg k p q) (mkseg k p' q').
Proof.
  intros L a b c d p q p' q' k [[E1 U1] [E2 U2]] [[E3 U3] [E4 U4]] A B C D.
  destruct (ex0 _ _ E1), (ex0 _ _ E2), (ex0 _ _ E3), (ex0 _ _ E4). split.
  - split; [reflexivity|]. split; split; split; simpl; auto; congruence.
  - split; [exists a, b|exists c, d]; auto.
Qed.
Lemma zshell_rel : forall L x0 a b, zfits x0 [a; b] -> Forall2 (zs L) (zshell (FA L) x0 a b) (zshell RA x0 a b).
Proof.
  intros L x0 [y w] [y' w'] H. destruct (H _ (or_introl eq_refl)) as (A1 & A2 & A3). destruct (H _ (or_intror (or_introl eq_refl))) as (B1 & B2 & B3). cbn [fst snd] in *.
  unfold zshell. cbn [fst snd]. unfold mantel_segments, wall_segments, is_wall. cbn [filter sc Wall NonWall scls_eqb].
  pose proof (wh_ofZ x0 ltac:(lia)) as X. pose proof (wh_ofZ y ltac:(lia)) as Y. pose proof (wh_ofZ (y' - y) ltac:(lia)) as H'.
  pose proof (wh_div 2 w _ _ (wh_ofZ (2 * w) ltac:(lia)) ltac:(lia) ltac:(lia)) as W. pose proof (wh_div 2 w' _ _ (wh_ofZ (2 * w') ltac:(lia)) ltac:(lia) ltac:(lia)) as W'.
  assert (P1 := zp_new L _ _ _ _ _ _ (wh_add _ _ _ _ _ _ X W ltac:(lia)) Y ltac:(lia) ltac:(lia)).
  assert (P2 := zp_new L _ _ _ _ _ _ (wh_add _ _ _ _ _ _ X W' ltac:(lia)) (wh_add _ _ _ _ _ _ Y H' ltac:(lia)) ltac:(lia) ltac:(lia)).
  assert (P3 := zp_new L _ _ _ _ _ _ (wh_sub _ _ _ _ _ _ X W' ltac:(lia)) (wh_add _ _ _ _ _ _ Y H' ltac:(lia)) ltac:(lia) ltac:(lia)).
  assert (P4 := zp_new L _ _ _ _ _ _ (wh_sub _ _ _ _ _ _ X W ltac:(lia)) Y ltac:(lia) ltac:(lia)).
  constructor; [|constructor; [|constructor]]; [eapply (zs_intro L _ _ _ _ _ _ _ _ CWall P1 P2)|eapply (zs_intro L _ _ _ _ _ _ _ _ CWall P3 P4)]; lia.
Qed.
Lemma tenth : value (Fdiv (FofZ 1) (FofZ 10)) < 1 /\ double (Fdiv (FofZ 1) (FofZ 10)).
Proof.
  assert (E : Fdiv (FofZ 1) (FofZ 10) = S754_finite false 7205759403792794 (-56)) by (vm_compute; reflexivity). rewrite E. split; [|split; reflexivity].
  unfold value. simpl. unfold F2R. simpl. lra.
Qed.
Lemma zclosed_rel : forall L x0 k up a, zfits x0 [a] -> zend k up a -> Forall2 (zs L) (zclosed (FA L) x0 k up a) (zclosed RA x0 k up a).
Proof.
  intros L x0 k up [y w] H E. destruct (H _ (or_introl eq_refl)) as (A1 & A2 & A3). cbn [fst snd] in *.
  pose proof (wh_ofZ x0 ltac:(lia)) as X. pose proof (wh_ofZ y ltac:(lia)) as Y.
  pose proof (wh_ofZ (2 * w) ltac:(lia)) as W2. pose proof (wh_div 2 w _ _ W2 ltac:(lia) ltac:(lia)) as W.
  assert (OP : wh (2 * - w) (SFopp (FofZ (2 * w))) (- IZR (2 * w))) by (replace (2 * - w)%Z with (- (2 * w))%Z by lia; apply wh_opp; auto).
  pose proof (wh_div 2 (- w) _ _ OP ltac:(lia) ltac:(lia)) as V.
  destruct k; unfold zclosed; cbn [fst snd].
  - unfold flachboden_segments, wall_segments, is_wall, seg_move, move_pt. cbn [filter sc Wall si sj scls_eqb]. pose proof (wh_ofZ 0 ltac:(lia)) as Z0.
    destruct (zp_new L _ _ _ _ _ _ V Z0 ltac:(lia) ltac:(lia)) as [P1 P2]. destruct (zp_new L _ _ _ _ _ _ W Z0 ltac:(lia) ltac:(lia)) as [Q1 Q2].
    assert (P := zp_new L _ _ _ _ _ _ (wh_add _ _ _ _ _ _ P1 X ltac:(lia)) (wh_add _ _ _ _ _ _ P2 Y ltac:(lia)) ltac:(lia) ltac:(lia)).
    assert (Q := zp_new L _ _ _ _ _ _ (wh_add _ _ _ _ _ _ Q1 X ltac:(lia)) (wh_add _ _ _ _ _ _ Q2 Y ltac:(lia)) ltac:(lia) ltac:(lia)).
    constructor; [|constructor]. eapply (zs_intro L _ _ _ _ _ _ _ _ CWall P Q); lia.
  - destruct E as (m & M1 & M2 & M3). cbn [fst snd] in M2, M3. unfold head_graph.
    assert (HG : wh m (h_graph (A := FA L) (nofZ (2 * w))) (h_graph (A := RA) (nofZ (2 * w)))).
    { pose proof (wh_div 1000 m _ _ ltac:(replace (1000 * m)%Z with (2 * w)%Z by lia; exact W2) ltac:(lia) ltac:(lia)) as T. unfold h_graph, nmax.
      destruct T as [T1 T2]. destruct (ex0 _ _ T1) as [T3 T4]. destruct tenth as [T5 T6].
      assert (B1 : nltb (Arith := FA L) (ndec 1 10) (nofZ (2 * w) / nofZ 1000)%num = true).
      { change (SFltb (Fdiv (FofZ 1) (FofZ 10)) (Fdiv (FofZ (2 * w)) (FofZ 1000)) = true). rewrite fltb by auto. apply Rlt_bool_true. change (value (Fdiv (FofZ 1) (FofZ 10)) < value (Fdiv (FofZ (2 * w)) (FofZ 1000))).
        rewrite T4. apply Rlt_le_trans with 1; auto. apply (IZR_le 1). lia. }
      assert (B2 : nltb (Arith := RA) (ndec 1 10) (nofZ (2 * w) / nofZ 1000)%num = true).
      { change (Rltb (1 / 10) (IZR (2 * w) / 1000) = true). apply Rltb_true. change (IZR (2 * w) / 1000 = IZR m) in T2. rewrite T2. apply Rlt_le_trans with 1; [lra|]. apply (IZR_le 1). lia. }
      rewrite B1, B2. split; auto. }
    pose proof (wh_ofZ (if up then 1 else -1) ltac:(destruct up; lia)) as O.
    assert (MO : wh ((if up then 1 else -1) * m) (nmul (Arith := FA L) (nofZ (if up then 1 else -1)) (h_graph (A := FA L) (nofZ (2 * w)))) (IZR (if up then 1 else -1) * h_graph (A := RA) (nofZ (2 * w)))) by (apply wh_mul; auto; destruct up; lia).
    assert (T := zp_new L _ _ _ _ _ _ X (wh_add _ _ _ _ _ _ Y MO ltac:(destruct up; lia)) ltac:(lia) ltac:(lia)).
    assert (P := zp_new L _ _ _ _ _ _ (wh_add _ _ _ _ _ _ V X ltac:(lia)) Y ltac:(lia) ltac:(lia)).
    assert (Q := zp_new L _ _ _ _ _ _ (wh_add _ _ _ _ _ _ W X ltac:(lia)) Y ltac:(lia) ltac:(lia)).
    constructor; [|constructor; [|constructor]]; [eapply (zs_intro L _ _ _ _ _ _ _ _ CWall P T)|eapply (zs_intro L _ _ _ _ _ _ _ _ CWall T Q)]; lia.
Qed.
Lemma zparts_rel : forall L x0 bot top a l, zfits x0 (a :: l) -> zend bot false a -> zend top true (last l a) -> Forall2 (Forall2 (zs L)) (zparts (FA L) x0 bot top a l) (zparts RA x0 bot top a l).
Proof.
  intros L x0 bot top a l H E1 E2. unfold zparts. constructor; [|constructor].
  - apply zclosed_rel; auto. intros u [<-|[]]. apply H. left; auto.
  - apply zclosed_rel; auto. intros u [<-|[]]. apply H. apply PStack.last_in.
  - clear E1 E2. revert a H. induction l as [|b l IH]; intros a H; [constructor|]. constructor.
    + apply zshell_rel. intros u [<-|[<-|[]]]; apply H; simpl; auto.
    + apply IH. intros u U. apply H. right. auto.
Qed.
Definition lev (a : zlevel) : level := (IZR (fst a), IZR (2 * snd a)).
Lemma zparts_real : forall x0 bot top a l, zparts RA x0 bot top a l = standing_parts (IZR x0) bot top (lev a) (map lev l).
Proof.
  intros x0 bot top a l. unfold zparts, standing_parts. assert (LS : last (map lev l) (lev a) = lev (last l a)).
  { revert a. induction l as [|b l IH]; intros a; auto. cbn [map]. rewrite !PStack.last_cons. apply IH. }
  rewrite LS. assert (C : forall k up u, zclosed RA x0 k up u = closed_by (IZR x0) k up (lev u)) by (intros [|] [|] u; reflexivity). rewrite !C. f_equal. f_equal.
  clear LS C. revert a. induction l as [|b l IH]; intros a; auto. cbn [zshells map shells]. rewrite IH. f_equal. unfold zshell, shell, lev. cbn [fst snd]. rewrite <- minus_IZR. reflexivity.
Qed.

(*@ C98_whole *)
(** C98 in binary64: a standing vessel of up to 60 shells with whole sizes (even diameters, nothing further than 2000 from the
    origin; heads with a diameter of one or more thousands), its parts given in any order: find_loops finds
    the one loop of all its walls, whatever the order of the sets; its coordinates are exact. *)
Lemma standing_whole : forall L (schs : nat -> sched (FA L)) wf fuel x0 bot top a l (ps : list (list (seg (FA L)))),
  zfits x0 (a :: l) -> zrising a l -> zend bot false a -> zend top true (last l a) -> l <> [] -> (length l <= 60)%nat ->
  Permutation ps (zparts (FA L) x0 bot top a l) -> (forall k, SpecGroup.fair (schs k)) -> ((4 * length l + 9) * (2 * length l + 5) <= wf)%nat -> (0 < fuel)%nat ->
  exists c h v, find_loops schs wf fuel (concat ps) = Ok (Some ([c], h)) /\ exact_segs (MGroup.value h c) v /\ rearranged v (concat (zparts RA x0 bot top a l)).
Proof.
  intros L schs wf fuel x0 bot top a l ps ZF ZR E1 E2 NE LL PS FS LW LF.
  destruct (Permutation_Forall2 (Permutation_sym PS) (zparts_rel L x0 bot top a l ZF E1 E2)) as (rs & PR & FR).
  assert (CF : Forall2 (zs L) (concat ps) (concat rs)) by (clear - FR; induction FR; simpl; [constructor|]; apply Forall2_app; auto).
  rewrite zparts_real in PR.
  assert (M : measured (IZR x0) (map lev (a :: l))).
  { assert (DZ : forall n, decimal8 (IZR n)) by (intros n; exists (n * 100000000)%Z; rewrite mult_IZR; lra). split; auto.
    intros u U. apply in_map_iff in U as (b & <- & B). destruct (ZF b B) as (F1 & F2 & F3). unfold lev. cbn [fst snd]. split; auto. rewrite mult_IZR. split.
    - replace (2 * IZR (snd b) / 2) with (IZR (snd b)) by lra. auto.
    - apply IZR_le in F2. lra. }
  assert (RI : rising (lev a) (map lev l)).
  { clear - ZR. revert a ZR. induction l as [|b l IH]; intros a ZR; simpl; auto. destruct ZR as [Z1 Z2]. split; auto. assert (fst a + 1 <= fst b)%Z as K by lia. apply IZR_le in K. rewrite plus_IZR in K. lra. }
  destruct (PStack.standing_ring (IZR x0) bot top (lev a) (map lev l) rs M RI) as (RG & UN & NO & CW & LG).
  { destruct l; [congruence|discriminate]. } { rewrite map_length. auto. } { apply Permutation_sym. auto. }
  rewrite map_length in LG.
  destruct (PPlainWhole.ring_whole L schs wf fuel (concat ps) (concat rs)) as (c & h & v & Q1 & Q2 & Q3); auto.
  - clear - CF. unfold exact_segs. induction CF as [|s t ? ? [K1 K2] ? IH]; constructor; auto.
  - clear - CF. induction CF as [|s t ? ? [K1 K2] ? IH]; constructor; auto.
  - lia.
  - eapply Nat.le_trans; [|exact LW]. apply Nat.mul_le_mono; lia.
  - intros s I. rewrite (CW s I). discriminate.
  - exists c, h, v. split; auto. split; auto. rewrite zparts_real. destruct Q3 as (g' & K1 & K2). exists g'. split; auto. eapply perm_trans; [exact K1|]. apply PStack.concat_perm. apply Permutation_sym. auto.
Qed.

(*@ex C98_whole_example *)
(** C98: a vessel of diameter 1000 with a head below, a cylinder, a cone and a flat end above. *)
Lemma standing_whole_example : let a := (0, 500)%Z in let l := [(700, 500); (900, 200)]%Z in
  zfits 10 (a :: l) /\ zrising a l /\ zend Dome false a /\ zend Flat true (last l a).
Proof.
  cbv zeta. split; [|split; [simpl; lia|split; [exists 1%Z; simpl; lia|exact I]]].
  intros u [<-|[<-|[<-|[]]]]; simpl; lia.
Qed.
