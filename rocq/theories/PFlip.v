(** Edge flips in a planar triangulation. *)
From Coq Require Import Reals ZArith Lra Lia Bool List Psatz.
From Verif Require Import Base Arith ArithR MPoint MLine MPoly MDelaunay Spec SpecDelaunay SpecPlanar PPoint PLine PTrig PDelaunay PDelAdd PDelGeo PPlane.
Import ListNotations.
Local Open Scope R_scope.
#[local] Existing Instance RA.

(** * Triangles by their vertices *)
Lemma has_lt : forall (A : Arith) (st : dst A) k v, consistent st -> has st k v -> (v < length (dpts st))%nat.
Proof. intros A st k v C (t & E & I). apply (proj2 (cs_tri st C _ _ E)). exact I. Qed.
Lemma point_at : forall (st : dst RA) v, (v < length (dpts st))%nat -> exists p, nth_error (dpts st) v = Some p.
Proof. intros st v L. destruct (nth_error (dpts st) v) eqn:E; [eauto|]. apply nth_error_None in E. lia. Qed.
Lemma third : forall (A : Arith) (st : dst A) k i j, consistent st -> has st k i -> has st k j -> i <> j ->
  exists u, has st k u /\ u <> i /\ u <> j /\ forall v, has st k v <-> v = i \/ v = j \/ v = u.
Proof.
  intros A st k i j C (t & E & I) (t' & E' & J) IJ. rewrite E in E'. injection E' as <-.
  destruct (opposite_some t i j (proj1 (cs_tri st C _ _ E))) as (u & O). destruct (opposite_spec t i j u (proj1 (cs_tri st C _ _ E)) I J IJ O) as (U1 & U2 & U3).
  exists u. split; [apply (has_nth st _ _ _ E); apply U3; auto|]. split; [auto|]. split; [auto|]. intros v. rewrite (has_nth st _ _ _ E). apply U3.
Qed.

(** The height of a point on the paraboloid, and the volume below the lifted triangle (times 6). *)
Definition lift (p : pt RA) : R := px p * px p + py p * py p.
Definition vol (a b c : pt RA) : R := Rabs (orient a b c) * (lift a + lift b + lift c).

Definition same_tri (a b c d e f : pt RA) : Prop :=
  (forall p, in_open a b c p <-> in_open d e f p) /\ (forall p, in_closed a b c p <-> in_closed d e f p) /\
  Rabs (orient a b c) = Rabs (orient d e f) /\ vol a b c = vol d e f.
Lemma same_swap : forall a b c, same_tri a b c b a c.
Proof.
  intros a b c. assert (E : Rabs (orient a b c) = Rabs (orient b a c)) by (rewrite (or_swap a b c), Rabs_Ropp; reflexivity).
  repeat split; try apply open_swap; try apply closed_swap; auto. unfold vol. rewrite E. ring.
Qed.
Lemma same_rot : forall a b c, same_tri a b c b c a.
Proof.
  intros a b c. assert (E : Rabs (orient a b c) = Rabs (orient b c a)) by (f_equal; symmetry; apply or_rot).
  repeat split; try apply open_rot; try apply closed_rot; auto. unfold vol. rewrite E. ring.
Qed.
Lemma same_trans : forall a b c d e f x y z, same_tri a b c d e f -> same_tri d e f x y z -> same_tri a b c x y z.
Proof.
  intros a b c d e f x y z (H1 & H2 & H3 & H4) (K1 & K2 & K3 & K4). split; [intros p; rewrite H1; apply K1|]. split; [intros p; rewrite H2; apply K2|]. split; congruence.
Qed.
Lemma same_refl : forall a b c, same_tri a b c a b c.
Proof. intros. repeat split; auto. Qed.

Lemma corners_perm : forall (st : dst RA) k i j u A B O a b c, corners st k a b c ->
  has st k i -> has st k j -> has st k u -> i <> j -> u <> i -> u <> j ->
  nth_error (dpts st) i = Some A -> nth_error (dpts st) j = Some B -> nth_error (dpts st) u = Some O -> same_tri a b c A B O.
Proof.
  intros st k i j u A B O a b c (x & y & z & E & Ea & Eb & Ec) Hi Hj Hu IJ UI UJ EA EB EO.
  apply (has_nth st _ _ _ E) in Hi. apply (has_nth st _ _ _ E) in Hj. apply (has_nth st _ _ _ E) in Hu. cbn in Hi, Hj, Hu.
  assert (S2 : same_tri a b c c a b) by (eapply same_trans; apply same_rot).
  assert (S3 : same_tri a b c a c b) by (eapply same_trans; [apply S2|apply same_swap]).
  assert (S4 : same_tri a b c c b a) by (eapply same_trans; [apply same_rot|apply same_swap]).
  pose proof (same_refl a b c). pose proof (same_swap a b c). pose proof (same_rot a b c).
  assert (IN : forall i p q, nth_error (dpts st) i = Some p -> nth_error (dpts st) i = Some q -> p = q) by congruence.
  destruct Hi as [->|[->|[->|[]]]], Hj as [->|[->|[->|[]]]], Hu as [->|[->|[->|[]]]]; try congruence;
  rewrite ?(IN _ _ _ EA Ea), ?(IN _ _ _ EA Eb), ?(IN _ _ _ EA Ec), ?(IN _ _ _ EB Ea), ?(IN _ _ _ EB Eb), ?(IN _ _ _ EB Ec), ?(IN _ _ _ EO Ea), ?(IN _ _ _ EO Eb), ?(IN _ _ _ EO Ec); auto.
Qed.
Lemma corners_ex : forall (st : dst RA) k v, consistent st -> has st k v -> exists a b c, corners st k a b c.
Proof.
  intros st k v C (t & E & I). destruct t as [[x y] z]. destruct (cs_tri st C _ _ E) as [_ L]. cbn in L.
  destruct (point_at st x (L x ltac:(auto))) as (a & Ea). destruct (point_at st y (L y ltac:(auto))) as (b & Eb). destruct (point_at st z (L z ltac:(auto))) as (c & Ec).
  exists a, b, c, x, y, z. auto.
Qed.
Lemma corners_has : forall (st : dst RA) k a b c, corners st k a b c -> exists x y z, has st k x /\ has st k y /\ has st k z /\
  nth_error (dtris st) k = Some (x, y, z) /\ nth_error (dpts st) x = Some a /\ nth_error (dpts st) y = Some b /\ nth_error (dpts st) z = Some c.
Proof. intros st k a b c (x & y & z & E & Ea & Eb & Ec). exists x, y, z. rewrite !(has_nth st _ _ _ E). cbn. auto 10. Qed.

(** * Triangles with a common edge *)
Lemma tri_not_flat : forall (st : dst RA) k i j u a b o, consistent st -> planar st -> has st k i -> has st k j -> has st k u -> i <> j -> u <> i -> u <> j ->
  nth_error (dpts st) i = Some a -> nth_error (dpts st) j = Some b -> nth_error (dpts st) u = Some o -> orient a b o <> 0.
Proof.
  intros st k i j u a b o C P Hi Hj Hu IJ UI UJ Ea Eb Eo. destruct (corners_ex st k i C Hi) as (x & y & z & CR).
  destruct (corners_perm st k i j u a b o x y z CR Hi Hj Hu IJ UI UJ Ea Eb Eo) as (_ & _ & H & _). pose proof (proj1 P _ _ _ _ CR) as N.
  intros Z. rewrite Z, Rabs_R0 in H. apply Rabs_no_R0 in N. contradiction.
Qed.
Lemma opposite_sides : forall (st : dst RA) k l i j u w a b o1 o2, consistent st -> planar st -> k <> l -> i <> j ->
  has st k i -> has st k j -> has st k u -> u <> i -> u <> j -> has st l i -> has st l j -> has st l w -> w <> i -> w <> j ->
  nth_error (dpts st) i = Some a -> nth_error (dpts st) j = Some b -> nth_error (dpts st) u = Some o1 -> nth_error (dpts st) w = Some o2 ->
  orient a b o1 * orient a b o2 < 0.
Proof.
  intros st k l i j u w a b o1 o2 C P KL IJ Hi Hj Hu UI UJ Li Lj Lw WI WJ Ea Eb E1 E2.
  pose proof (tri_not_flat st k i j u a b o1 C P Hi Hj Hu IJ UI UJ Ea Eb E1) as N1. pose proof (tri_not_flat st l i j w a b o2 C P Li Lj Lw IJ WI WJ Ea Eb E2) as N2.
  apply Rnot_le_lt. intros Z. assert (Z' : 0 < orient a b o1 * orient a b o2) by (destruct Z as [Z|Z]; [exact Z|]; exfalso; symmetry in Z; apply Rmult_integral in Z; tauto).
  destruct (same_side a b o1 o2 Z') as (p & P1 & P2). apply KL.
  destruct (corners_ex st k i C Hi) as (x & y & z & CR). destruct (corners_ex st l i C Li) as (x' & y' & z' & CR').
  apply (proj2 P k l x y z x' y' z' p CR CR').
  - apply (proj1 (corners_perm st k i j u a b o1 x y z CR Hi Hj Hu IJ UI UJ Ea Eb E1)). exact P1.
  - apply (proj1 (corners_perm st l i j w a b o2 x' y' z' CR' Li Lj Lw IJ WI WJ Ea Eb E2)). exact P2.
Qed.
Lemma at_most_two : forall (st : dst RA) i j ts, consistent st -> planar st -> In ((i, j), ts) (de2t st) -> (length ts <= 2)%nat.
Proof.
  intros st i j ts C P I. destruct (cs_val st C _ _ _ I) as (IJ & _ & ND). pose proof (cs_edge st C _ _ _ I) as W.
  destruct ts as [|k1 [|k2 [|k3 ts]]]; cbn [length]; try lia. exfalso.
  assert (W1 : has st k1 i /\ has st k1 j) by (apply W; cbn; auto). assert (W2 : has st k2 i /\ has st k2 j) by (apply W; cbn; auto). assert (W3 : has st k3 i /\ has st k3 j) by (apply W; cbn; auto).
  assert (D : k1 <> k2 /\ k1 <> k3 /\ k2 <> k3).
  { inversion ND as [|? ? X1 X2]; subst. inversion X2 as [|? ? X3 X4]; subst. cbn in X1, X3. intuition. }
  assert (IJ' : i <> j) by lia.
  destruct (third RA st k1 i j C (proj1 W1) (proj2 W1) IJ') as (u1 & U1 & U1a & U1b & _).
  destruct (third RA st k2 i j C (proj1 W2) (proj2 W2) IJ') as (u2 & U2 & U2a & U2b & _).
  destruct (third RA st k3 i j C (proj1 W3) (proj2 W3) IJ') as (u3 & U3 & U3a & U3b & _).
  destruct (point_at st i (has_lt RA st k1 i C (proj1 W1))) as (a & Ea). destruct (point_at st j (has_lt RA st k1 j C (proj2 W1))) as (b & Eb).
  destruct (point_at st u1 (has_lt RA st k1 u1 C U1)) as (o1 & E1). destruct (point_at st u2 (has_lt RA st k2 u2 C U2)) as (o2 & E2). destruct (point_at st u3 (has_lt RA st k3 u3 C U3)) as (o3 & E3).
  pose proof (opposite_sides st k1 k2 i j u1 u2 a b o1 o2 C P ltac:(tauto) IJ' (proj1 W1) (proj2 W1) U1 U1a U1b (proj1 W2) (proj2 W2) U2 U2a U2b Ea Eb E1 E2) as S1.
  pose proof (opposite_sides st k1 k3 i j u1 u3 a b o1 o3 C P ltac:(tauto) IJ' (proj1 W1) (proj2 W1) U1 U1a U1b (proj1 W3) (proj2 W3) U3 U3a U3b Ea Eb E1 E3) as S2.
  pose proof (opposite_sides st k2 k3 i j u2 u3 a b o2 o3 C P ltac:(tauto) IJ' (proj1 W2) (proj2 W2) U2 U2a U2b (proj1 W3) (proj2 W3) U3 U3a U3b Ea Eb E2 E3) as S3.
  set (x := orient a b o1) in *. set (y := orient a b o2) in *. set (z := orient a b o3) in *. clearbody x y z. clear - S1 S2 S3.
  assert (0 <= x * y * (x * z) * (y * z)) by (replace (x * y * (x * z) * (y * z)) with ((x * y * z) * (x * y * z)) by ring; nra). nra.
Qed.

(** * What a flip does *)
Record flipped (st st' : dst RA) (i j k1 k2 u w : nat) (a b o1 o2 : pt RA) : Prop := {
  f_k : k1 <> k2; f_in : In ((i, j), [k1; k2]) (de2t st); f_ui : u <> i; f_uj : u <> j; f_wi : w <> i; f_wj : w <> j; f_uw : u <> w; f_ij : i <> j;
  f_h1 : forall v, has st k1 v <-> v = i \/ v = j \/ v = u; f_h2 : forall v, has st k2 v <-> v = i \/ v = j \/ v = w;
  f_a : nth_error (dpts st) i = Some a; f_b : nth_error (dpts st) j = Some b; f_o1 : nth_error (dpts st) u = Some o1; f_o2 : nth_error (dpts st) w = Some o2;
  f_pts : dpts st' = dpts st; f_bnd : dbnd st' = dbnd st; f_len : length (dtris st') = length (dtris st);
  f_t1 : nth_error (dtris st') k1 = Some (u, i, w); f_t2 : nth_error (dtris st') k2 = Some (u, w, j);
  f_other : forall k, k <> k1 -> k <> k2 -> nth_error (dtris st') k = nth_error (dtris st) k;
  f_sign : (0 < orient a b o1 /\ orient a b o2 < 0 /\ incirc a b o1 o2 < 0 /\ 0 < orient o1 a o2 /\ 0 < orient o1 o2 b) \/
           (orient a b o1 < 0 /\ 0 < orient a b o2 /\ 0 < incirc a b o1 o2 /\ orient o1 a o2 < 0 /\ orient o1 o2 b < 0);
  f_nodiag : forall k, ~ (has st k u /\ has st k w);
  f_cons : consistent st' }.

(** No triangle has both opposite corners of an edge that is flipped. *)
Lemma no_diag : forall (st : dst RA) k1 k2 i j u w a b o1 o2 k, consistent st -> planar st -> i <> j -> u <> i -> u <> j -> w <> i -> w <> j -> u <> w ->
  has st k1 i -> has st k1 j -> has st k1 u -> has st k2 i -> has st k2 j -> has st k2 w ->
  nth_error (dpts st) i = Some a -> nth_error (dpts st) j = Some b -> nth_error (dpts st) u = Some o1 -> nth_error (dpts st) w = Some o2 ->
  0 < orient a b o1 -> orient a b o2 < 0 -> 0 < orient o1 a o2 -> 0 < orient o1 o2 b -> ~ (has st k u /\ has st k w).
Proof.
  intros st k1 k2 i j u w a b o1 o2 k C P IJ UI UJ WI WJ UW H1i H1j H1u H2i H2j H2w Ea Eb E1 E2 Q1 Q2 Q3 Q4 (Hu & Hw).
  destruct (third RA st k u w C Hu Hw UW) as (v & Hv & VU & VW & HV). destruct (point_at st v (has_lt RA st k v C Hv)) as (c & Ec).
  pose proof (tri_not_flat st k u w v o1 o2 c C P Hu Hw Hv UW VU VW E1 E2 Ec) as N.
  destruct (quad_diag a b o1 o2 Q1 Q2 Q3 Q4 c N) as (p & P0 & P12).
  destruct (corners_ex st k u C Hu) as (x & y & z & CR). pose proof (proj2 (proj1 (corners_perm st k u w v o1 o2 c x y z CR Hu Hw Hv UW VU VW E1 E2 Ec) p) P0) as PK.
  assert (K : k = k1 \/ k = k2).
  { destruct P12 as [P12|P12].
    - left. destruct (corners_ex st k1 i C H1i) as (x' & y' & z' & CR'). apply (proj2 P k k1 x y z x' y' z' p CR CR' PK).
      apply (proj1 (corners_perm st k1 i j u a b o1 x' y' z' CR' H1i H1j H1u IJ UI UJ Ea Eb E1)). exact P12.
    - right. destruct (corners_ex st k2 i C H2i) as (x' & y' & z' & CR'). apply (proj2 P k k2 x y z x' y' z' p CR CR' PK).
      apply (proj1 (corners_perm st k2 i j w a b o2 x' y' z' CR' H2i H2j H2w IJ WI WJ Ea Eb E2)). exact P12. }
  assert (TWO : forall k i j u w, has st k i -> has st k j -> has st k u -> has st k w -> i <> j -> u <> i -> u <> j -> w <> i -> w <> j -> u = w).
  { clear - C. intros k i j u w Hi Hj Hu Hw IJ UI UJ WI WJ. destruct (third RA st k i j C Hi Hj IJ) as (v & _ & _ & _ & HV). apply HV in Hu, Hw. intuition congruence. }
  apply UW. destruct K as [-> | ->]; [apply (TWO k1 i j u w); auto|apply (TWO k2 i j u w); auto].
Qed.

Lemma flip_cases : forall (st st' : dst RA) i j r, consistent st -> Forall stored (dpts st) -> planar st -> flipOneEdge st (i, j) = Ok (st', r) ->
  (st' = st /\ r = []) \/ (r <> [] /\ exists k1 k2 u w a b o1 o2, flipped st st' i j k1 k2 u w a b o1 o2 /\
    forall x y, (x < y)%nat -> (In (x, y) r <-> ((x = u \/ x = w) /\ (y = i \/ y = j)) \/ ((y = u \/ y = w) /\ (x = i \/ x = j)))).
Proof.
  intros st st' i j r C SP P F. pose proof F as F0.
  destruct (flip_replaces RA st st' i j r C F) as [?|FR]; [auto|].
  destruct FR as (k1 & k2 & u & w & K12 & I & UI & UJ & WI & WJ & HT1 & HT2 & HP & HB & HL & N1 & N2 & HO & HR).
  right. destruct (cs_val st C _ _ _ I) as (IJ & _ & _).
  assert (NR : r <> []).
  { intros ->. assert (u < i \/ i < u)%nat as [L|L] by lia; apply HR in L; destruct L as [_ L]; apply L; auto. }
  split; [exact NR|].
  assert (H1i : has st k1 i) by (apply HT1; auto). assert (H1j : has st k1 j) by (apply HT1; auto). assert (H1u : has st k1 u) by (apply HT1; auto).
  assert (H2i : has st k2 i) by (apply HT2; auto). assert (H2j : has st k2 j) by (apply HT2; auto). assert (H2w : has st k2 w) by (apply HT2; auto).
  destruct (point_at st i (has_lt RA st k1 i C H1i)) as (a & Ea). destruct (point_at st j (has_lt RA st k1 j C H1j)) as (b & Eb).
  destruct (point_at st u (has_lt RA st k1 u C H1u)) as (o1 & E1). destruct (point_at st w (has_lt RA st k2 w C H2w)) as (o2 & E2).
  assert (IJ' : i <> j) by lia.
  pose proof (opposite_sides st k1 k2 i j u w a b o1 o2 C P K12 IJ' H1i H1j H1u UI UJ H2i H2j H2w WI WJ Ea Eb E1 E2) as OP.
  assert (UW : u <> w). { intros ->. rewrite E1 in E2. injection E2 as ->. pose proof (Rle_0_sqr (orient a b o2)) as Z. unfold Rsqr in Z. lra. }
  assert (SS : forall k p, nth_error (dpts st) k = Some p -> stored p) by (intros k p E; apply nth_error_In in E; rewrite Forall_forall in SP; auto).
  destruct (flip_eval RA st i j k1 k2 u w) as (v & st2 & T & F2); auto.
  assert (v = true) as -> by (destruct v; [reflexivity|]; rewrite F in F2; injection F2 as _ ->; congruence).
  pose proof (test_incirc (dpts st) u w i j a b o1 o2 Ea Eb E1 E2 (SS _ _ Ea) (SS _ _ Eb) (SS _ _ E1) (SS _ _ E2) T) as [T1 T2].
  destruct (flip_delaunay st st' i j k1 k2 u w a b o1 o2 r C SP I H1u UI UJ H2w WI WJ Ea Eb E1 E2 OP F NR) as (_ & _ & _ & _ & S1 & S2 & _ & _).
  assert (SG : (0 < orient a b o1 /\ orient a b o2 < 0 /\ incirc a b o1 o2 < 0 /\ 0 < orient o1 a o2 /\ 0 < orient o1 o2 b) \/
           (orient a b o1 < 0 /\ 0 < orient a b o2 /\ 0 < incirc a b o1 o2 /\ orient o1 a o2 < 0 /\ orient o1 o2 b < 0)).
  { destruct (signs _ _ S1) as [[A1 A2]|[A1 A2]], (signs _ _ S2) as [[B1 B2]|[B1 B2]]; try lra; [left|right].
    - assert (orient a b o2 < 0) by nra. repeat split; auto.
    - assert (0 < orient a b o2) by nra. repeat split; auto. }
  assert (ND : forall k, ~ (has st k u /\ has st k w)).
  { intros k. destruct SG as [(G1 & G2 & _ & G4 & G5)|(G1 & G2 & _ & G4 & G5)].
    - apply (no_diag st k1 k2 i j u w a b o1 o2 k); auto.
    - apply (no_diag st k1 k2 j i u w b a o1 o2 k); auto; rewrite ?(or_swap a b); try lra.
      + replace (orient o1 b o2) with (- orient o1 o2 b) by (unfold orient; ring). lra.
      + replace (orient o1 o2 a) with (- orient o1 a o2) by (unfold orient; ring). lra. }
  exists k1, k2, u, w, a, b, o1, o2. split; [|exact HR]. constructor; auto.
  refine (proj1 (flip_consistent RA st st' i j r C F0 _)).
  intros x y v z XY Xi Xj Xv Yi Yj Yz V1 V2 Z1 Z2.
  (* x and y are the two triangles *)
  assert (XX : In x [k1; k2]) by (apply (cs_edge st C _ _ _ I); auto). assert (YY : In y [k1; k2]) by (apply (cs_edge st C _ _ _ I); auto).
  cbn in XX, YY. destruct XX as [<-|[<-|[]]], YY as [<-|[<-|[]]]; try congruence.
  - apply HT1 in Xv. apply HT2 in Yz. assert (v = u) as -> by intuition congruence. assert (z = w) as -> by intuition congruence. auto.
  - apply HT2 in Xv. apply HT1 in Yz. assert (v = w) as -> by intuition congruence. assert (z = u) as -> by intuition congruence. split; [auto|]. intros k [X Y]. apply (ND k); auto.
Qed.

(** * Planarity, area and volume *)
Lemma quad_any : forall a b o1 o2 : pt RA,
  (0 < orient a b o1 /\ orient a b o2 < 0 /\ incirc a b o1 o2 < 0 /\ 0 < orient o1 a o2 /\ 0 < orient o1 o2 b) \/
  (orient a b o1 < 0 /\ 0 < orient a b o2 /\ 0 < incirc a b o1 o2 /\ orient o1 a o2 < 0 /\ orient o1 o2 b < 0) ->
  (forall p, in_open o1 a o2 p \/ in_open o1 o2 b p -> orient a b p <> 0 -> in_open a b o1 p \/ in_open a b o2 p) /\
  (forall p, in_closed a b o1 p \/ in_closed a b o2 p <-> in_closed o1 a o2 p \/ in_closed o1 o2 b p) /\
  Rabs (orient o1 a o2) + Rabs (orient o1 o2 b) = Rabs (orient a b o1) + Rabs (orient a b o2) /\
  vol o1 a o2 + vol o1 o2 b < vol a b o1 + vol a b o2.
Proof.
  assert (OM : forall a b c p, in_open a b c p <-> in_open a c b p) by (intros; rewrite (open_rot a c b p), (open_swap c b a p), <- (open_rot a b c p); tauto).
  assert (CM : forall a b c p, in_closed a b c p <-> in_closed a c b p) by (intros; rewrite (closed_rot a c b p), (closed_swap c b a p), <- (closed_rot a b c p); tauto).
  assert (SUM : forall a b o1 o2, orient o1 a o2 + orient o1 o2 b = orient a b o1 - orient a b o2) by (intros; unfold orient; ring).
  assert (VOL : forall a b o1 o2 : pt RA, orient o1 a o2 * (lift o1 + lift a + lift o2) + orient o1 o2 b * (lift o1 + lift o2 + lift b) =
     orient a b o1 * (lift a + lift b + lift o1) - orient a b o2 * (lift a + lift b + lift o2) + incirc a b o1 o2).
  { intros [ax ay] [bx by'] [cx cy] [dx dy]. unfold lift, incirc, dot, orient. cbn [px py]. ring. }
  intros a b o1 o2 [(G1 & G2 & G3 & G4 & G5)|(G1 & G2 & G3 & G4 & G5)].
  - split; [intros p [H|H] N; [apply (quad_open1 a b o1 o2)|apply (quad_open2 a b o1 o2)]; auto|].
    split; [apply quad_closed; auto|]. unfold vol. rewrite (Rabs_right (orient o1 a o2)), (Rabs_right (orient o1 o2 b)), (Rabs_right (orient a b o1)), (Rabs_left (orient a b o2)) by lra.
    pose proof (SUM a b o1 o2). pose proof (VOL a b o1 o2). split; lra.
  - assert (H1 : 0 < orient b a o1) by (rewrite or_swap; lra). assert (H2 : orient b a o2 < 0) by (rewrite or_swap; lra).
    assert (H3 : 0 < orient o1 b o2) by (rewrite or_mid; lra). assert (H4 : 0 < orient o1 o2 a) by (rewrite or_mid; lra).
    split.
    { intros p H N. rewrite (open_swap a b o1), (open_swap a b o2). assert (N' : orient b a p <> 0) by (rewrite or_swap; lra).
      destruct H as [H|H]; apply OM in H; [apply (quad_open2 b a o1 o2)|apply (quad_open1 b a o1 o2)]; auto. }
    split.
    { intros p. rewrite (closed_swap a b o1), (closed_swap a b o2), (quad_closed b a o1 o2 H1 H2 H3 H4 p), (CM o1 b o2 p), (CM o1 o2 a p). tauto. }
    unfold vol. rewrite (Rabs_left (orient o1 a o2)), (Rabs_left (orient o1 o2 b)), (Rabs_left (orient a b o1)), (Rabs_right (orient a b o2)) by lra.
    pose proof (SUM a b o1 o2). pose proof (VOL a b o1 o2). split; lra.
Qed.

Lemma corners_flip : forall (st st' : dst RA) i j k1 k2 u w a b o1 o2 k x y z, flipped st st' i j k1 k2 u w a b o1 o2 -> corners st' k x y z ->
  (k = k1 /\ x = o1 /\ y = a /\ z = o2) \/ (k = k2 /\ x = o1 /\ y = o2 /\ z = b) \/ (k <> k1 /\ k <> k2 /\ corners st k x y z).
Proof.
  intros st st' i j k1 k2 u w a b o1 o2 k x y z F (p & q & s & E & Ep & Eq & Es). rewrite (f_pts _ _ _ _ _ _ _ _ _ _ _ _ F) in *.
  pose proof (f_a _ _ _ _ _ _ _ _ _ _ _ _ F). pose proof (f_b _ _ _ _ _ _ _ _ _ _ _ _ F). pose proof (f_o1 _ _ _ _ _ _ _ _ _ _ _ _ F). pose proof (f_o2 _ _ _ _ _ _ _ _ _ _ _ _ F).
  destruct (Nat.eq_dec k k1) as [->|K1]; [left|destruct (Nat.eq_dec k k2) as [->|K2]; [right; left|right; right]].
  - rewrite (f_t1 _ _ _ _ _ _ _ _ _ _ _ _ F) in E. injection E as <- <- <-. repeat split; congruence.
  - rewrite (f_t2 _ _ _ _ _ _ _ _ _ _ _ _ F) in E. injection E as <- <- <-. repeat split; congruence.
  - rewrite (f_other _ _ _ _ _ _ _ _ _ _ _ _ F) in E by auto. split; [auto|]. split; [auto|]. exists p, q, s. auto.
Qed.
Lemma corners_new : forall (st st' : dst RA) i j k1 k2 u w a b o1 o2, flipped st st' i j k1 k2 u w a b o1 o2 -> corners st' k1 o1 a o2 /\ corners st' k2 o1 o2 b /\
  forall k x y z, k <> k1 -> k <> k2 -> corners st k x y z -> corners st' k x y z.
Proof.
  intros st st' i j k1 k2 u w a b o1 o2 F. unfold corners. rewrite (f_pts _ _ _ _ _ _ _ _ _ _ _ _ F).
  pose proof (f_a _ _ _ _ _ _ _ _ _ _ _ _ F). pose proof (f_b _ _ _ _ _ _ _ _ _ _ _ _ F). pose proof (f_o1 _ _ _ _ _ _ _ _ _ _ _ _ F). pose proof (f_o2 _ _ _ _ _ _ _ _ _ _ _ _ F).
  split; [exists u, i, w; rewrite (f_t1 _ _ _ _ _ _ _ _ _ _ _ _ F); auto|]. split; [exists u, w, j; rewrite (f_t2 _ _ _ _ _ _ _ _ _ _ _ _ F); auto|].
  intros k x y z K1 K2 (p & q & s & E & H'). exists p, q, s. rewrite (f_other _ _ _ _ _ _ _ _ _ _ _ _ F) by auto. auto.
Qed.
(** The corners of the two old triangles. *)
Lemma corners_old : forall (st st' : dst RA) i j k1 k2 u w a b o1 o2, consistent st -> flipped st st' i j k1 k2 u w a b o1 o2 ->
  (exists x y z, corners st k1 x y z /\ same_tri x y z a b o1) /\ (exists x y z, corners st k2 x y z /\ same_tri x y z a b o2).
Proof.
  intros st st' i j k1 k2 u w a b o1 o2 C F. destruct F. split.
  - destruct (corners_ex st k1 i C) as (x & y & z & CR); [apply f_h3; auto|]. exists x, y, z. split; [exact CR|]. apply (corners_perm st k1 i j u a b o1); auto; apply f_h3; auto.
  - destruct (corners_ex st k2 i C) as (x & y & z & CR); [apply f_h4; auto|]. exists x, y, z. split; [exact CR|]. apply (corners_perm st k2 i j w a b o2); auto; apply f_h4; auto.
Qed.

Lemma flipped_planar : forall (st st' : dst RA) i j k1 k2 u w a b o1 o2, consistent st -> planar st -> flipped st st' i j k1 k2 u w a b o1 o2 -> planar st'.
Proof.
  intros st st' i j k1 k2 u w a b o1 o2 C P F. destruct (quad_any a b o1 o2 (f_sign _ _ _ _ _ _ _ _ _ _ _ _ F)) as (QO & _).
  pose proof (f_sign _ _ _ _ _ _ _ _ _ _ _ _ F) as SG.
  destruct (corners_old _ _ _ _ _ _ _ _ _ _ _ _ C F) as ((x1 & y1 & z1 & C1 & S1) & (x2 & y2 & z2 & C2 & S2)).
  (* a new triangle and one that has not changed *)
  assert (NEW : forall k x y z d e f p, k <> k1 -> k <> k2 -> corners st k x y z -> (d = o1 /\ e = a /\ f = o2) \/ (d = o1 /\ e = o2 /\ f = b) -> in_open d e f p -> in_open x y z p -> False).
  { intros k x y z d e f p K1 K2 CK DEF PN PO.
    assert (OFF : exists q, orient a b q <> 0 /\ in_open d e f q /\ in_open x y z q).
    { destruct (Req_dec (orient a b p) 0) as [Z|Z]; [|exists p; auto].
      destruct (open_keep d e f p o1 PN) as (s1 & T1 & K1'). destruct (open_keep x y z p o1 PO) as (s2 & T2 & K2').
      pose proof (Rmin_l s1 s2). pose proof (Rmin_r s1 s2). assert (M : 0 < Rmin s1 s2) by (apply Rmin_glb_lt; lra).
      exists (along p o1 (Rmin s1 s2)). split; [|split; [apply K1'|apply K2']; lra]. rewrite or_along, Z. destruct SG as [(G & _)|(G & _)]; nra. }
    destruct OFF as (q & Q0 & Q1 & Q2). assert (QO' : in_open a b o1 q \/ in_open a b o2 q) by (apply QO; [destruct DEF as [(-> & -> & ->)|(-> & -> & ->)]; auto|exact Q0]).
    destruct QO' as [Q3|Q3].
    - apply (proj1 S1) in Q3. apply K1. apply (proj2 P k k1 x y z x1 y1 z1 q); auto.
    - apply (proj1 S2) in Q3. apply K2. apply (proj2 P k k2 x y z x2 y2 z2 q); auto. }
  assert (DIS : forall p, in_open o1 a o2 p -> in_open o1 o2 b p -> False).
  { intros p H1 H2. destruct SG as [(_ & _ & _ & G4 & G5)|(_ & _ & _ & G4 & G5)].
    - apply (open_pos _ _ _ _ G4) in H1. apply (open_pos _ _ _ _ G5) in H2. rewrite (or_swap o1 o2 p) in H1. lra.
    - apply open_swap in H1. apply open_swap in H2. apply open_pos in H1; [|rewrite or_swap; lra]. apply open_pos in H2; [|rewrite or_swap; lra].
      rewrite (or_swap o1 o2 p) in H2. lra. }
  split.
  - intros k x y z CR. destruct (corners_flip _ _ _ _ _ _ _ _ _ _ _ _ _ _ _ _ F CR) as [(_ & -> & -> & ->)|[(_ & -> & -> & ->)|(_ & _ & CR')]].
    + destruct SG as [(_ & _ & _ & G4 & _)|(_ & _ & _ & G4 & _)]; lra.
    + destruct SG as [(_ & _ & _ & _ & G5)|(_ & _ & _ & _ & G5)]; lra.
    + apply (proj1 P k). exact CR'.
  - intros k l x y z d e f p CK CL PK PL.
    destruct (corners_flip _ _ _ _ _ _ _ _ _ _ _ _ _ _ _ _ F CK) as [(-> & -> & -> & ->)|[(-> & -> & -> & ->)|(K1 & K2 & CK')]];
    destruct (corners_flip _ _ _ _ _ _ _ _ _ _ _ _ _ _ _ _ F CL) as [(-> & -> & -> & ->)|[(-> & -> & -> & ->)|(L1 & L2 & CL')]]; auto; try (exfalso; eauto 3; fail).
    + exfalso. eapply (NEW l d e f o1 a o2); eauto.
    + exfalso. eapply (NEW l d e f o1 o2 b); eauto.
    + exfalso. eapply (NEW k x y z o1 a o2); eauto.
    + exfalso. eapply (NEW k x y z o1 o2 b); eauto.
    + apply (proj2 P k l x y z d e f p); auto.
Qed.

Lemma flipped_cover : forall (st st' : dst RA) i j k1 k2 u w a b o1 o2 p, consistent st -> flipped st st' i j k1 k2 u w a b o1 o2 -> (covered st p <-> covered st' p).
Proof.
  intros st st' i j k1 k2 u w a b o1 o2 p C F. destruct (quad_any a b o1 o2 (f_sign _ _ _ _ _ _ _ _ _ _ _ _ F)) as (_ & QC & _).
  destruct (corners_old _ _ _ _ _ _ _ _ _ _ _ _ C F) as ((x1 & y1 & z1 & C1 & S1) & (x2 & y2 & z2 & C2 & S2)).
  destruct (corners_new _ _ _ _ _ _ _ _ _ _ _ _ F) as (N1 & N2 & NO).
  assert (FUN : forall k x y z d e f, corners st k x y z -> corners st k d e f -> x = d /\ y = e /\ z = f).
  { intros k x y z d e f (p1 & p2 & p3 & E & Q1 & Q2 & Q3) (q1 & q2 & q3 & E' & R1 & R2 & R3). rewrite E in E'. injection E' as <- <- <-. repeat split; congruence. }
  split; intros (k & x & y & z & CR & H).
  - destruct (Nat.eq_dec k k1) as [->|K1]; [|destruct (Nat.eq_dec k k2) as [->|K2]].
    + destruct (FUN _ _ _ _ _ _ _ CR C1) as (-> & -> & ->). apply (proj1 (proj2 S1)) in H. destruct (proj1 (QC p) (or_introl H)) as [K|K]; [exists k1, o1, a, o2|exists k2, o1, o2, b]; auto.
    + destruct (FUN _ _ _ _ _ _ _ CR C2) as (-> & -> & ->). apply (proj1 (proj2 S2)) in H. destruct (proj1 (QC p) (or_intror H)) as [K|K]; [exists k1, o1, a, o2|exists k2, o1, o2, b]; auto.
    + exists k, x, y, z. auto.
  - destruct (corners_flip _ _ _ _ _ _ _ _ _ _ _ _ _ _ _ _ F CR) as [(-> & -> & -> & ->)|[(-> & -> & -> & ->)|(K1 & K2 & CK')]].
    + destruct (proj2 (QC p) (or_introl H)) as [K|K]; [exists k1, x1, y1, z1|exists k2, x2, y2, z2]; (split; [auto|]); [apply (proj1 (proj2 S1))|apply (proj1 (proj2 S2))]; auto.
    + destruct (proj2 (QC p) (or_intror H)) as [K|K]; [exists k1, x1, y1, z1|exists k2, x2, y2, z2]; (split; [auto|]); [apply (proj1 (proj2 S1))|apply (proj1 (proj2 S2))]; auto.
    + exists k, x, y, z. auto.
Qed.
