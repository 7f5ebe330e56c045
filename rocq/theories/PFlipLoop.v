(** The flip loop ends, and with a Delaunay triangulation. *)
From Coq Require Import Reals ZArith Lra Lia Bool List Psatz.
From Verif Require Import Base Arith ArithR MPoint MLine MPoly MDelaunay Spec SpecDelaunay SpecPlanar PPoint PLine PTrig PDelaunay PDelAdd PDelGeo PPlane PFlip.
Import ListNotations.
Local Open Scope R_scope.
#[local] Existing Instance RA.

(** * Sums over the triangles *)
Lemma fsum_tset : forall f l k t x, nth_error l k = Some x -> fsum f (tset l k t) = fsum f l - f x + f t.
Proof.
  induction l as [|y l IH]; intros [|k] t x E; cbn in *; try discriminate; [injection E as ->; ring|]. rewrite (IH _ _ _ E). ring.
Qed.
Lemma two_changes : forall f l l' k1 k2 x1 x2 y1 y2, k1 <> k2 -> length l' = length l -> nth_error l k1 = Some x1 -> nth_error l k2 = Some x2 ->
  nth_error l' k1 = Some y1 -> nth_error l' k2 = Some y2 -> (forall k, k <> k1 -> k <> k2 -> nth_error l' k = nth_error l k) ->
  fsum f l' = fsum f l - f x1 - f x2 + f y1 + f y2.
Proof.
  intros f l l' k1 k2 x1 x2 y1 y2 K L E1 E2 F1 F2 O.
  assert (EQ : l' = tset (tset l k1 y1) k2 y2).
  { assert (EXT : forall l m : list tri, (forall k, nth_error l k = nth_error m k) -> l = m).
    { clear. induction l as [|x l IH]; intros [|y m] H; auto; [specialize (H O); discriminate..|]. f_equal; [specialize (H O); cbn in H; congruence|]. apply IH. intros k. apply (H (S k)). }
    apply EXT. intros k. rewrite !tset_nth. rewrite (proj2 (Nat.eqb_neq k2 k1)) by auto. rewrite E1, E2.
    destruct (Nat.eqb_spec k k2) as [->|K2]; [auto|]. destruct (Nat.eqb_spec k k1) as [->|K1]; auto. }
  rewrite EQ. rewrite (fsum_tset f _ k2 y2 x2) by (rewrite tset_nth, (proj2 (Nat.eqb_neq k2 k1)) by auto; exact E2). rewrite (fsum_tset f l k1 y1 x1 E1). ring.
Qed.

(** Six times the volume below the lifted triangles. *)
Definition volume (ps : list (pt RA)) (l : list tri) : R := fsum (on_tri vol ps) l.

Lemma flipped_sums : forall (st st' : dst RA) i j k1 k2 u w a b o1 o2, consistent st -> flipped st st' i j k1 k2 u w a b o1 o2 ->
  total_area st' = total_area st /\ volume (dpts st) (dtris st') < volume (dpts st) (dtris st).
Proof.
  intros st st' i j k1 k2 u w a b o1 o2 C F. destruct (quad_any a b o1 o2 (f_sign _ _ _ _ _ _ _ _ _ _ _ _ F)) as (_ & _ & QA & QV).
  destruct (corners_old _ _ _ _ _ _ _ _ _ _ _ _ C F) as ((x1 & y1 & z1 & (p1 & q1 & r1 & C1 & C1a & C1b & C1c) & S1) & (x2 & y2 & z2 & (p2 & q2 & r2 & C2 & C2a & C2b & C2c) & S2)).
  destruct F. unfold total_area, volume. rewrite f_pts.
  rewrite !(two_changes _ (dtris st) (dtris st') k1 k2 (p1, q1, r1) (p2, q2, r2) (u, i, w) (u, w, j)) by auto.
  unfold on_tri at 2 3 4 5. unfold on_tri at 4 5 6 7. rewrite C1a, C1b, C1c, C2a, C2b, C2c, f_a, f_b, f_o1, f_o2.
  destruct S1 as (_ & _ & S1 & V1). destruct S2 as (_ & _ & S2 & V2). rewrite S1, S2, V1, V2. split; lra.
Qed.

(** * Edges that need no flip *)
Definition good (st : dst RA) (i j : nat) : Prop :=
  forall k l u w a b o1 o2 al1 al2, k <> l ->
    has st k i -> has st k j -> has st k u -> u <> i -> u <> j ->
    has st l i -> has st l j -> has st l w -> w <> i -> w <> j ->
    nth_error (dpts st) i = Some a -> nth_error (dpts st) j = Some b ->
    nth_error (dpts st) u = Some o1 -> nth_error (dpts st) w = Some o2 ->
    angle_at o1 a b al1 -> angle_at o2 a b al2 -> al1 + al2 <= PI * (1 + 1 / 10 ^ 8).

Record fine (st : dst RA) : Prop := { fi_cons : consistent st; fi_st : Forall stored (dpts st); fi_pl : planar st }.

Lemma good_if : forall (st st' : dst RA) i j, fine st -> (i < j)%nat -> flipOneEdge st (i, j) = Ok (st', []) -> good st i j.
Proof.
  intros st st' i j [C SP P] IJ F k l u w a b o1 o2 al1 al2 KL Ki Kj Ku UI UJ Li Lj Lw WI WJ Ea Eb E1 E2 A1 A2.
  destruct (cs_all st C k i j IJ Ki Kj) as (ts & I). pose proof (at_most_two st i j ts C P I) as L.
  assert (IK : In k ts) by (apply (cs_edge st C _ _ _ I); auto). assert (IL : In l ts) by (apply (cs_edge st C _ _ _ I); auto).
  pose proof (opposite_sides st k l i j u w a b o1 o2 C P KL ltac:(lia) Ki Kj Ku UI UJ Li Lj Lw WI WJ Ea Eb E1 E2) as OP.
  assert (NE : forall o o', orient a b o * orient a b o' < 0 -> o <> a /\ o <> b).
  { intros o o' H. split; intros ->; destruct (or_same a b) as (Z1 & Z2 & _); rewrite ?Z1, ?Z2 in H; lra. }
  destruct (NE _ _ OP) as [N1 N2]. rewrite Rmult_comm in OP. destruct (NE _ _ OP) as [N3 N4].
  apply Rnot_lt_le. intros BAD.
  destruct ts as [|t1 [|t2 [|]]]; cbn in L, IK, IL; try lia; try tauto.
  assert (KK : (t1 = k /\ t2 = l) \/ (t1 = l /\ t2 = k)) by intuition congruence. clear IK IL. destruct KK as [[-> ->]|[-> ->]].
  - destruct (flip_iff st i j k l u w a b o1 o2 al1 al2) as (s & r & F' & X & _); auto. rewrite F in F'. injection F' as <- <-. apply (proj2 X BAD). reflexivity.
  - destruct (flip_iff st i j l k w u a b o2 o1 al2 al1) as (s & r & F' & X & _); auto. rewrite F in F'. injection F' as <- <-. apply (proj2 X); [lra|reflexivity].
Qed.

Lemma has_flip : forall (st st' : dst RA) i j k1 k2 u w a b o1 o2 k v, flipped st st' i j k1 k2 u w a b o1 o2 ->
  (has st' k v <-> (k = k1 /\ (v = u \/ v = i \/ v = w)) \/ (k = k2 /\ (v = u \/ v = w \/ v = j)) \/ (k <> k1 /\ k <> k2 /\ has st k v)).
Proof.
  intros st st' i j k1 k2 u w a b o1 o2 k v F. destruct F.
  destruct (Nat.eq_dec k k1) as [->|K1]; [|destruct (Nat.eq_dec k k2) as [->|K2]].
  - rewrite (has_nth st' _ _ _ f_t1). cbn. intuition.
  - rewrite (has_nth st' _ _ _ f_t2). cbn. intuition.
  - unfold has. rewrite f_other by auto. split; [auto|]. intros [[E _]|[[E _]|(_ & _ & E)]]; congruence || exact E.
Qed.

Lemma good_flip : forall (st st' : dst RA) i j r k1 k2 u w a b o1 o2 x y, fine st -> fine st' -> flipped st st' i j k1 k2 u w a b o1 o2 ->
  flipOneEdge st (i, j) = Ok (st', r) -> r <> [] -> (x < y)%nat ->
  ~ (((x = u \/ x = w) /\ (y = i \/ y = j)) \/ ((y = u \/ y = w) /\ (x = i \/ x = j))) -> good st x y \/ (x = i /\ y = j) -> good st' x y.
Proof.
  intros st st' i j r k1 k2 u w a b o1 o2 x y [C SP P] FI F FE NR XY NS G.
  pose proof (fun k v => has_flip st st' i j k1 k2 u w a b o1 o2 k v F) as HF.
  assert (DIAG : (x = u /\ y = w) \/ (x = w /\ y = u) \/ ~ ((x = u \/ x = w) /\ (y = u \/ y = w))) by lia.
  assert (DG : x = Nat.min u w /\ y = Nat.max u w \/ ~ ((x = u \/ x = w) /\ (y = u \/ y = w))) by lia. clear DIAG.
  destruct DG as [[EX EY]|ND].
  { subst x y. apply (good_if st' st'); auto.
    destruct F. assert (OP : orient a b o1 * orient a b o2 < 0) by (destruct f_sign as [(G1 & G2 & _)|(G1 & G2 & _)]; nra).
    apply (flip_delaunay st st' i j k1 k2 u w a b o1 o2 r); auto; [apply f_h1|apply f_h2]; auto. }
  intros k l v z A B O1 O2 al1 al2 KL Kx Ky Kv VX VY Lx Ly Lz ZX ZY EA EB EO1 EO2 A1 A2.
  (* neither is a new triangle *)
  assert (OLD : forall k, has st' k x -> has st' k y -> k <> k1 /\ k <> k2).
  { intros m Mx My. apply HF in Mx, My. pose proof (f_k _ _ _ _ _ _ _ _ _ _ _ _ F) as KK.
    clear - KK Mx My NS ND XY.
    destruct Mx as [[-> Mx]|[[-> Mx]|(M1 & M2 & _)]]; [| |auto]; exfalso; destruct My as [[E My]|[[E My]|(M3 & M4 & _)]]; try congruence.
    - destruct Mx as [-> | [-> | ->]], My as [-> | [-> | ->]]; try (apply Nat.lt_irrefl in XY; exact XY); (apply NS; auto; fail) || (apply ND; auto).
    - destruct Mx as [-> | [-> | ->]], My as [-> | [-> | ->]]; try (apply Nat.lt_irrefl in XY; exact XY); (apply NS; auto; fail) || (apply ND; auto). }
  destruct (OLD k Kx Ky) as [K1 K2]. destruct (OLD l Lx Ly) as [L1 L2].
  assert (UN : forall k v, k <> k1 -> k <> k2 -> has st' k v -> has st k v) by (intros m q M1 M2 H; apply HF in H; intuition).
  rewrite (f_pts _ _ _ _ _ _ _ _ _ _ _ _ F) in *.
  destruct G as [G|[-> ->]].
  - apply (G k l v z A B O1 O2 al1 al2); auto.
  - exfalso. assert (I : In k [k1; k2]) by (apply (cs_edge st C _ _ _ (f_in _ _ _ _ _ _ _ _ _ _ _ _ F)); auto). cbn in I. clear - I K1 K2. intuition.
Qed.

Lemma flipped_used : forall (st st' : dst RA) i j k1 k2 u w a b o1 o2 v, flipped st st' i j k1 k2 u w a b o1 o2 -> (used st' v <-> used st v).
Proof.
  intros st st' i j k1 k2 u w a b o1 o2 v F. pose proof (fun k v => has_flip st st' i j k1 k2 u w a b o1 o2 k v F) as HF.
  pose proof (f_h1 _ _ _ _ _ _ _ _ _ _ _ _ F) as H1. pose proof (f_h2 _ _ _ _ _ _ _ _ _ _ _ _ F) as H2. split; intros (k & H).
  - apply HF in H. destruct H as [(-> & [-> | [-> | ->]])|[(-> & [-> | [-> | ->]])|(_ & _ & H)]]; [exists k1; apply H1; auto|exists k1; apply H1; auto|exists k2; apply H2; auto|exists k1; apply H1; auto|exists k2; apply H2; auto|exists k1; apply H1; auto|exists k; auto].
  - destruct (Nat.eq_dec k k1) as [->|K1]; [|destruct (Nat.eq_dec k k2) as [->|K2]].
    + apply H1 in H. destruct H as [-> | [-> | ->]]; [exists k1|exists k2|exists k1]; apply HF; auto 6.
    + apply H2 in H. destruct H as [-> | [-> | ->]]; [exists k1|exists k2|exists k1]; apply HF; auto 6.
    + exists k. apply HF. auto.
Qed.
Lemma flipped_sole : forall (st st' : dst RA) i j k1 k2 u w a b o1 o2 x y, flipped st st' i j k1 k2 u w a b o1 o2 -> x <> y -> sole st x y -> sole st' x y.
Proof.
  intros st st' i j k1 k2 u w a b o1 o2 x y F XY (k & S).
  assert (EQ : forall k', (has st' k' x /\ has st' k' y) -> k' = k1 \/ k' = k2 \/ k' = k).
  { intros k' [Hx Hy]. destruct (Nat.eq_dec k' k1) as [|N1]; [auto|]. destruct (Nat.eq_dec k' k2) as [|N2]; [auto|]. right; right. apply S.
    apply (has_flip _ _ _ _ _ _ _ _ _ _ _ _ _ _ F) in Hx, Hy.
    destruct Hx as [[E _]|[[E _]|(_ & _ & Hx)]]; try contradiction. destruct Hy as [[E _]|[[E _]|(_ & _ & Hy)]]; try contradiction. auto. }
  pose proof (fun k v => has_flip st st' i j k1 k2 u w a b o1 o2 k v F) as HF. destruct F.
  assert (HK : has st k x /\ has st k y) by (apply S; reflexivity).
  assert (X1 : has st k1 x /\ has st k1 y -> k1 = k) by (intros; apply S; auto). assert (X2 : has st k2 x /\ has st k2 y -> k2 = k) by (intros; apply S; auto).
  rewrite !f_h1 in X1. rewrite !f_h2 in X2. pose proof (f_nodiag k) as ND.
  assert (M1 : forall v, has st' k1 v <-> v = u \/ v = i \/ v = w) by (intros v; rewrite (has_nth st' _ _ _ f_t1); cbn; clear; intuition).
  assert (M2 : forall v, has st' k2 v <-> v = u \/ v = w \/ v = j) by (intros v; rewrite (has_nth st' _ _ _ f_t2); cbn; clear; intuition).
  assert (N1 : has st' k1 x /\ has st' k1 y <-> (x = u \/ x = i \/ x = w) /\ (y = u \/ y = i \/ y = w)) by (rewrite !M1; reflexivity).
  assert (N2 : has st' k2 x /\ has st' k2 y <-> (x = u \/ x = w \/ x = j) /\ (y = u \/ y = w \/ y = j)) by (rewrite !M2; reflexivity).
  destruct (Nat.eq_dec k k1) as [->|K1].
  { rewrite !f_h1 in HK. assert (NIJ : ~ ((x = i \/ x = j) /\ (y = i \/ y = j))) by (intros [A B]; apply f_k; symmetry; apply X2; split; [destruct A|destruct B]; auto).
    assert (SD : ((x = i /\ y = u) \/ (x = u /\ y = i)) \/ ((x = j /\ y = u) \/ (x = u /\ y = j))) by (clear - HK NIJ XY; lia).
    destruct SD as [SD|SD].
    - exists k1. intros k'. split; [|intros ->; apply N1; clear - SD; lia]. intros H. destruct (EQ k' H) as [-> | [-> | ->]]; auto. apply N2 in H. clear - H SD f_ui f_wi f_uj f_wj f_uw f_ij. exfalso. lia.
    - exists k2. intros k'. split; [|intros ->; apply N2; clear - SD; lia]. intros H. destruct (EQ k' H) as [-> | [-> | ->]]; auto; apply N1 in H; clear - H SD f_ui f_wi f_uj f_wj f_uw f_ij; exfalso; lia. }
  destruct (Nat.eq_dec k k2) as [->|K2].
  { rewrite !f_h2 in HK. assert (NIJ : ~ ((x = i \/ x = j) /\ (y = i \/ y = j))) by (intros [A B]; apply f_k; apply X1; split; [destruct A|destruct B]; auto).
    assert (SD : ((x = i /\ y = w) \/ (x = w /\ y = i)) \/ ((x = j /\ y = w) \/ (x = w /\ y = j))) by (clear - HK NIJ XY; lia).
    destruct SD as [SD|SD].
    - exists k1. intros k'. split; [|intros ->; apply N1; clear - SD; lia]. intros H. destruct (EQ k' H) as [-> | [-> | ->]]; auto; apply N2 in H; clear - H SD f_ui f_wi f_uj f_wj f_uw f_ij; exfalso; lia.
    - exists k2. intros k'. split; [|intros ->; apply N2; clear - SD; lia]. intros H. destruct (EQ k' H) as [-> | [-> | ->]]; auto. apply N1 in H. clear - H SD f_ui f_wi f_uj f_wj f_uw f_ij. exfalso. lia. }
  exists k. intros k'. split.
  - intros H. destruct (EQ k' H) as [-> | [-> | ->]]; auto; exfalso.
    + apply N1 in H. destruct H as [[-> | [-> | ->]] [-> | [-> | ->]]]; try congruence; first [apply K1; symmetry; apply X1; auto; fail|apply K2; symmetry; apply X2; auto; fail|apply ND; destruct HK; auto].
    + apply N2 in H. destruct H as [[-> | [-> | ->]] [-> | [-> | ->]]]; try congruence; first [apply K1; symmetry; apply X1; auto; fail|apply K2; symmetry; apply X2; auto; fail|apply ND; destruct HK; auto].
  - intros ->. rewrite !HF. destruct HK. split; right; right; auto.
Qed.

(** * Rounds *)
(** What any number of flips keeps. *)
Record kept (st st' : dst RA) : Prop := {
  kp_fine : fine st'; kp_pts : dpts st' = dpts st; kp_bnd : dbnd st' = dbnd st; kp_len : length (dtris st') = length (dtris st);
  kp_area : total_area st' = total_area st; kp_cov : forall p, covered st' p <-> covered st p;
  kp_used : forall v, used st' v <-> used st v; kp_sole : forall x y, x <> y -> sole st x y -> sole st' x y;
  kp_vol : volume (dpts st) (dtris st') <= volume (dpts st) (dtris st) }.
Lemma kept_refl : forall st, fine st -> kept st st.
Proof. intros st F. constructor; auto; try tauto. lra. Qed.
Lemma kept_trans : forall s1 s2 s3, kept s1 s2 -> kept s2 s3 -> kept s1 s3.
Proof.
  intros s1 s2 s3 [] []. constructor; auto; try congruence.
  - intros p. rewrite kp_cov1. apply kp_cov0.
  - intros v. rewrite kp_used1. apply kp_used0.
  - rewrite kp_pts0 in kp_vol1. lra.
Qed.

Lemma one_flip : forall (st : dst RA) i j, fine st -> exists st' r, flipOneEdge st (i, j) = Ok (st', r) /\ kept st st' /\
  ((st' = st /\ r = [] /\ ((i < j)%nat -> good st i j)) \/
   (r <> [] /\ volume (dpts st) (dtris st') < volume (dpts st) (dtris st) /\ forall x y, (x < y)%nat -> ~ In (x, y) r -> good st x y \/ (x = i /\ y = j) -> good st' x y)).
Proof.
  intros st i j FI. destruct FI as [C SP P]. destruct (flip_total RA st i j C) as [FT _].
  destruct FT as (st' & r & F); [intros ts I; apply (at_most_two st i j ts C P I)|]. exists st', r. split; [exact F|].
  assert (FI : fine st) by (constructor; auto).
  destruct (flip_cases st st' i j r C SP P F) as [[-> ->]|(NR & k1 & k2 & u & w & a & b & o1 & o2 & FL & HR)].
  - split; [apply kept_refl; auto|]. left. repeat split; auto. intros IJ. apply (good_if st st); auto.
  - destruct (flipped_sums _ _ _ _ _ _ _ _ _ _ _ _ C FL) as [SA SV].
    assert (FI' : fine st').
    { constructor; [apply (f_cons _ _ _ _ _ _ _ _ _ _ _ _ FL)|rewrite (f_pts _ _ _ _ _ _ _ _ _ _ _ _ FL); auto|apply (flipped_planar _ _ _ _ _ _ _ _ _ _ _ _ C P FL)]. }
    split.
    + constructor; auto; [apply (f_pts _ _ _ _ _ _ _ _ _ _ _ _ FL)|apply (f_bnd _ _ _ _ _ _ _ _ _ _ _ _ FL)|apply (f_len _ _ _ _ _ _ _ _ _ _ _ _ FL)| | | |lra].
      * intros p. symmetry. apply (flipped_cover _ _ _ _ _ _ _ _ _ _ _ _ p C FL).
      * intros v. apply (flipped_used _ _ _ _ _ _ _ _ _ _ _ _ v FL).
      * intros x y. apply (flipped_sole _ _ _ _ _ _ _ _ _ _ _ _ x y FL).
    + right. split; [exact NR|]. split; [exact SV|]. intros x y XY NI G. apply (good_flip st st' i j r k1 k2 u w a b o1 o2 x y); auto. rewrite <- HR by auto. exact NI.
Qed.

Lemma dedup_edges : forall l e, In e (dedup edge_eqb l) <-> In e l.
Proof. intros. apply dedup_In. apply edge_eqb_iff. Qed.

Lemma round_spec : forall es (st : dst RA) acc, fine st ->
  (forall x y, (x < y)%nat -> good st x y \/ In (x, y) es \/ In (x, y) acc) ->
  exists st' acc', foldM (fun '(st, acc) e => '(st', r) <- flipOneEdge st e ;; Ok (st', dedup edge_eqb (acc ++ r))) es (st, acc) = Ok (st', acc') /\
    kept st st' /\ (forall x y, (x < y)%nat -> good st' x y \/ In (x, y) acc') /\
    (acc = [] -> acc' <> [] -> volume (dpts st) (dtris st') < volume (dpts st) (dtris st)).
Proof.
  induction es as [|[i j] es IH]; intros st acc FI G.
  - exists st, acc. split; [reflexivity|]. split; [apply kept_refl; auto|]. split; [|intros E N; exfalso; apply N; exact E]. intros x y XY. destruct (G x y XY) as [H|[[]|H]]; auto.
  - destruct (one_flip st i j FI) as (s1 & r & F & K & D). cbn [foldM]. rewrite F. cbn [bind].
    set (acc1 := dedup edge_eqb (acc ++ r)). assert (FI1 : fine s1) by (apply (kp_fine _ _ K)).
    destruct (IH s1 acc1 FI1) as (s2 & acc2 & F2 & K2 & G2 & V2).
    { intros x y XY. assert (IN : In (x, y) acc \/ In (x, y) r -> In (x, y) acc1) by (unfold acc1; rewrite dedup_edges, in_app_iff; auto).
      destruct D as [(-> & -> & GD)|(NR & _ & GD)].
      - destruct (G x y XY) as [H|[[[= -> ->]|H]|H]]; auto.
      - destruct (in_dec (fun a b : edge => ltac:(decide equality; apply Nat.eq_dec)) (x, y) r) as [I|I]; [auto|].
        destruct (G x y XY) as [H|[[[= -> ->]|H]|H]]; auto. }
    exists s2, acc2. split; [exact F2|]. split; [apply (kept_trans _ _ _ K K2)|]. split; [exact G2|].
    intros -> NE. pose proof (kp_vol _ _ K2) as V. rewrite (kp_pts _ _ K) in V. destruct D as [(-> & -> & _)|(NR & LT & _)]; [apply V2; auto|lra].
Qed.

(** * The number of states *)
Fixpoint lists (T : list tri) (n : nat) : list (list tri) :=
  match n with O => [[]] | S n => flat_map (fun t => map (cons t) (lists T n)) T end.
Lemma lists_In : forall T l, Forall (fun t => In t T) l -> In l (lists T (length l)).
Proof.
  induction l as [|t l IH]; intros H; cbn; [auto|]. inversion H; subst. apply in_flat_map. exists t. split; auto. apply in_map. auto.
Qed.
Definition all_tris (n : nat) : list tri := list_prod (list_prod (seq 0 n) (seq 0 n)) (seq 0 n).
Lemma filter_le : forall (X : Type) (p q : X -> bool) l, (forall x, p x = true -> q x = true) -> (length (filter p l) <= length (filter q l))%nat.
Proof.
  intros X p q l H. induction l as [|x l IH]; cbn; [lia|]. destruct (p x) eqn:E; [rewrite (H x E); cbn; lia|]. destruct (q x); cbn; lia.
Qed.
Lemma filter_lt : forall (X : Type) (p q : X -> bool) l y, (forall x, p x = true -> q x = true) -> In y l -> p y = false -> q y = true ->
  (length (filter p l) < length (filter q l))%nat.
Proof.
  intros X p q l y H I P Q. induction l as [|x l IH]; [destruct I|]. cbn. destruct I as [->|I].
  - rewrite P, Q. cbn. pose proof (filter_le X p q l H). lia.
  - specialize (IH I). destruct (p x) eqn:E; [rewrite (H x E); cbn; lia|]. destruct (q x); cbn; lia.
Qed.
(** How many lists of triangles have a smaller volume. *)
Definition below (ps : list (pt RA)) (n : nat) (v : R) : nat :=
  length (filter (fun l => if Rlt_dec (volume ps l) v then true else false) (lists (all_tris (length ps)) n)).
Lemma below_lt : forall (st st' : dst RA), kept st st' -> volume (dpts st) (dtris st') < volume (dpts st) (dtris st) ->
  (below (dpts st') (length (dtris st')) (volume (dpts st') (dtris st')) < below (dpts st) (length (dtris st)) (volume (dpts st) (dtris st)))%nat.
Proof.
  intros st st' K V. rewrite (kp_pts _ _ K), (kp_len _ _ K). unfold below. apply (filter_lt _ _ _ _ (dtris st')).
  - intros l. destruct (Rlt_dec _ _) as [A|]; [|discriminate]. destruct (Rlt_dec _ _) as [|B]; [auto|]. exfalso. apply B. lra.
  - rewrite <- (kp_len _ _ K). apply lists_In. apply Forall_forall. intros [[x y] z] I. apply In_nth_error in I. destruct I as (k & E).
    destruct (cs_tri st' (fi_cons _ (kp_fine _ _ K)) _ _ E) as [_ L]. cbn in L. rewrite (kp_pts _ _ K) in L.
    unfold all_tris. apply in_prod; [apply in_prod|]; apply in_seq; cbn; (split; [lia|]); apply L; auto.
  - destruct (Rlt_dec _ _) as [A|]; [lra|reflexivity].
  - destruct (Rlt_dec _ _) as [|B]; [reflexivity|contradiction].
Qed.

Lemma loop_spec : forall n ord (st : dst RA) es, (forall es, incl es (ord es)) -> fine st ->
  (below (dpts st) (length (dtris st)) (volume (dpts st) (dtris st)) < n)%nat ->
  (forall x y, (x < y)%nat -> good st x y \/ In (x, y) es) ->
  exists st', (forall fuel, (n <= fuel)%nat -> flip_loop fuel ord st es = Ok (Some st')) /\ kept st st' /\ (forall x y, (x < y)%nat -> good st' x y).
Proof.
  induction n as [|n IH]; intros ord st es O FI B G; [lia|].
  destruct (round_spec (ord es) st [] FI) as (s1 & acc & F & K & G1 & V).
  { intros x y XY. destruct (G x y XY) as [H|H]; auto. right; left. apply O. exact H. }
  assert (FR : flip_round ord st es = Ok (s1, acc)) by exact F. clear F. rename FR into F.
  destruct acc as [|e acc].
  - exists s1. split; [|split; [exact K|]]. 2: { intros x y XY. destruct (G1 x y XY) as [H|[]]; exact H. }
    intros [|fuel] L; [lia|]. cbn [flip_loop]. rewrite F. reflexivity.
  - specialize (V eq_refl ltac:(discriminate)). pose proof (below_lt st s1 K V).
    destruct (IH ord s1 (e :: acc) O (kp_fine _ _ K) ltac:(lia) G1) as (s2 & F2 & K2 & G2). exists s2. split; [|split; [apply (kept_trans _ _ _ K K2)|exact G2]].
    intros [|fuel] L; [lia|]. cbn [flip_loop]. rewrite F. cbn [bind]. apply F2. lia.
Qed.

Lemma angle_sym : forall o p q al, angle_at o p q al -> angle_at o q p al.
Proof. intros o p q al [H E]. split; [exact H|]. rewrite (Rmult_comm (dist o q)), E. unfold dot. ring. Qed.

Lemma flips_kept : forall (ord : list edge -> list edge) (st : dst RA), (forall es, incl es (ord es)) -> fine st ->
  exists n st', (forall fuel, (n <= fuel)%nat -> flipEdges fuel ord st = Ok (Some st')) /\ kept st st' /\ delaunay st'.
Proof.
  intros ord st O FI. pose proof (fi_cons _ FI) as C.
  destruct (loop_spec _ ord st (map fst (de2t st)) O FI (Nat.lt_succ_diag_r _)) as (st' & F & K & G).
  - intros x y XY.
    destruct (in_dec (fun a b : edge => ltac:(decide equality; apply Nat.eq_dec)) (x, y) (map fst (de2t st))) as [I|I]; [auto|left].
    intros k l u w a b o1 o2 al1 al2 KL Kx Ky. exfalso. apply I. destruct (cs_all st C k x y XY Kx Ky) as (ts & J). apply in_map_iff. exists ((x, y), ts). auto.
  - exists (S (below (dpts st) (length (dtris st)) (volume (dpts st) (dtris st)))), st'. split; [exact F|]. split; [exact K|].
    intros k l i j u w a b o1 o2 al1 al2 KL IJ Ki Kj Ku UI UJ Li Lj Lw WI WJ Ea Eb E1 E2 A1 A2.
    assert (i < j \/ j < i)%nat as [L|L] by lia.
    + apply (G i j L k l u w a b o1 o2 al1 al2); auto.
    + apply (G j i L k l u w b a o1 o2 al1 al2); auto; apply angle_sym; auto.
Qed.

(*@ C85_flips_end *)
(** C85: let the triangles be planar: none is degenerate and no two have a common inner point; and let the
    dict be right.  Then flipping ends, whatever the order in which the edges of each round are looked at;
    and the outcome is planar again and a Delaunay triangulation (up to the tolerance of the code: the
    angles opposite to an edge sum up to 180 degrees times 1 + 1e-8 at most).  Points, boundary, the number
    of triangles, their total area and the set of the points they cover do not change. *)
Lemma flips_end : forall (ord : list edge -> list edge) (st : dst RA), (forall es, incl es (ord es)) ->
  consistent st -> Forall stored (dpts st) -> planar st ->
  exists n st', (forall fuel, (n <= fuel)%nat -> flipEdges fuel ord st = Ok (Some st')) /\
    consistent st' /\ planar st' /\ delaunay st' /\
    dpts st' = dpts st /\ dbnd st' = dbnd st /\ length (dtris st') = length (dtris st) /\
    total_area st' = total_area st /\ (forall p, covered st' p <-> covered st p).
Proof.
  intros ord st O C SP P. destruct (flips_kept ord st O) as (n & st' & F & K & D); [constructor; auto|]. exists n, st'. split; [exact F|].
  pose proof (kp_fine _ _ K) as [C' _ P']. do 3 (split; [auto|]).
  split; [apply (kp_pts _ _ K)|]. split; [apply (kp_bnd _ _ K)|]. split; [apply (kp_len _ _ K)|]. split; [apply (kp_area _ _ K)|]. apply (kp_cov _ _ K).
Qed.

(*@ex C85_example *)
(** The two triangles (0,0), (5,0), (2,1) and (0,0), (2,-1), (5,0) are consistent and planar; the common
    edge is flipped. *)
Lemma flips_example : consistent ex_st /\ Forall stored (dpts ex_st) /\ planar ex_st /\ ~ delaunay ex_st.
Proof.
  destruct flip_example as (C & SP & ED & H0 & H1 & _ & st1 & r & F & R & T). split; [exact C|]. split; [exact SP|].
  assert (P : planar ex_st).
  { split.
    - intros [|[|k]] a b c (x & y & z & E & Ea & Eb & Ec); cbn in E; [| |destruct k; discriminate]; injection E as <- <- <-; cbn in Ea, Eb, Ec; injection Ea as <-; injection Eb as <-; injection Ec as <-; unfold orient; cbn [px py]; lra.
    - assert (X : forall p, in_open (@mkpt RA 0 0) (@mkpt RA 5 0) (@mkpt RA 2 1) p -> in_open (@mkpt RA 0 0) (@mkpt RA 2 (-1)) (@mkpt RA 5 0) p -> False).
      { intros p [O1|O1] [O2|O2]; unfold orient in *; cbn [px py] in *; lra. }
      intros k l a b c d e f p (x & y & z & E & Ea & Eb & Ec) (x' & y' & z' & E' & Ed & Ee & Ef) O1 O2.
      destruct k as [|[|k]]; cbn in E; [| |destruct k; discriminate]; injection E as <- <- <-; cbn in Ea, Eb, Ec; injection Ea as <-; injection Eb as <-; injection Ec as <-;
      (destruct l as [|[|l]]; cbn in E'; [| |destruct l; discriminate]); injection E' as <- <- <-; cbn in Ed, Ee, Ef; injection Ed as <-; injection Ee as <-; injection Ef as <-; auto; exfalso; eapply X; eauto. }
  split; [exact P|]. intros D.
  assert (A : forall o : pt RA, px o = 2 -> py o = 1 \/ py o = -1 -> angle_at o (@mkpt RA 0 0) (@mkpt RA 5 0) (3 / 4 * PI)).
  { intros [ox oy] H2 H3. cbn [px py] in H2, H3. subst ox. split; [pose proof PI_RGT_0; lra|].
    replace (3 / 4 * PI) with (PI - PI / 4) by lra. rewrite Rtrigo_facts.cos_pi_minus, cos_PI4. unfold dot, dist. cbn [px py].
    assert (Y : oy * oy = 1) by (destruct H3; subst; lra).
    replace ((2 - 0) ^ 2 + (oy - 0) ^ 2) with 5 by lra. replace ((2 - 5) ^ 2 + (oy - 0) ^ 2) with (5 * 2) by lra.
    rewrite sqrt_mult by lra. pose proof (sqrt_sqrt 5 ltac:(lra)) as S5. pose proof (sqrt_sqrt 2 ltac:(lra)) as S2. pose proof (sqrt_lt_R0 2 ltac:(lra)).
    replace (sqrt 5 * (sqrt 5 * sqrt 2) * - (1 / sqrt 2)) with (- (sqrt 5 * sqrt 5)) by (field; lra). rewrite S5. lra. }
  assert (H00 : has ex_st 0 0 /\ has ex_st 0 1 /\ has ex_st 1 0 /\ has ex_st 1 1) by (repeat split; [exists (0, 1, 2)%nat|exists (0, 1, 2)%nat|exists (0, 3, 1)%nat|exists (0, 3, 1)%nat]; cbn; auto).
  destruct H00 as (Z1 & Z2 & Z3 & Z4).
  pose proof (D 0%nat 1%nat 0%nat 1%nat 2%nat 3%nat _ _ _ _ (3 / 4 * PI) (3 / 4 * PI) ltac:(lia) ltac:(lia) Z1 Z2 H0 ltac:(lia) ltac:(lia) Z3 Z4 H1 ltac:(lia) ltac:(lia) eq_refl eq_refl eq_refl eq_refl) as Q.
  pose proof PI_RGT_0. assert (Y : 3 / 4 * PI + 3 / 4 * PI <= PI * (1 + 1 / 10 ^ 8)) by (apply Q; apply A; cbn; auto). lra.
Qed.
