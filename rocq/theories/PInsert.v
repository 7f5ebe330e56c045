(** Adding a point to a planar triangulation of a convex polygon. *)
From Coq Require Import Reals ZArith Lra Lia Bool List Psatz.
From Verif Require Import Base Arith ArithR MPoint MLine MPoly MDelaunay Spec SpecDelaunay SpecPlanar PPoint PLine PTrig PDelaunay PDelAdd PDelGeo PPlane PFlip PFlipLoop.
Import ListNotations.
Local Open Scope R_scope.
#[local] Existing Instance RA.

(** * Geometry *)
(** An inner point of a triangle whose corners are on one side of a line, not all on it. *)
Lemma side_open : forall a b c x y p, orient a b c <> 0 -> in_open a b c p -> 0 <= orient x y a -> 0 <= orient x y b -> 0 <= orient x y c ->
  0 < orient x y a \/ 0 < orient x y b \/ 0 < orient x y c -> 0 < orient x y p.
Proof.
  assert (G : forall a b c x y p, 0 < orient a b c -> in_open a b c p -> 0 <= orient x y a -> 0 <= orient x y b -> 0 <= orient x y c ->
    0 < orient x y a \/ 0 < orient x y b \/ 0 < orient x y c -> 0 < orient x y p).
  { intros a b c x y p H O A B C S. apply (open_pos a b c p H) in O. destruct O as (O1 & O2 & O3). pose proof (or_bary a b c x y p) as E.
    assert (P1 : 0 <= orient b c p * orient x y a) by (apply Rmult_le_pos; lra). assert (P2 : 0 <= orient c a p * orient x y b) by (apply Rmult_le_pos; lra). assert (P3 : 0 <= orient a b p * orient x y c) by (apply Rmult_le_pos; lra).
    assert (Z : 0 < orient a b c * orient x y p).
    { rewrite E. destruct S as [S|[S|S]]; [assert (0 < orient b c p * orient x y a) by (apply Rmult_lt_0_compat; lra)|assert (0 < orient c a p * orient x y b) by (apply Rmult_lt_0_compat; lra)|assert (0 < orient a b p * orient x y c) by (apply Rmult_lt_0_compat; lra)]; lra. }
    apply Rmult_lt_reg_l with (orient a b c); lra. }
  intros a b c x y p N O A B C S. destruct (Rlt_le_dec 0 (orient a b c)) as [H|H]; [eapply G; eauto|].
  apply (G b a c x y p); auto; [rewrite or_swap; lra|apply open_swap; auto|tauto].
Qed.
Lemma side_closed : forall a b c x y p, orient a b c <> 0 -> in_closed a b c p -> 0 <= orient x y a -> 0 <= orient x y b -> 0 <= orient x y c -> 0 <= orient x y p.
Proof.
  assert (G : forall a b c x y p, 0 < orient a b c -> in_closed a b c p -> 0 <= orient x y a -> 0 <= orient x y b -> 0 <= orient x y c -> 0 <= orient x y p).
  { intros a b c x y p H O A B C. apply (closed_pos a b c p H) in O. destruct O as (O1 & O2 & O3). pose proof (or_bary a b c x y p) as E.
    assert (P1 : 0 <= orient b c p * orient x y a) by (apply Rmult_le_pos; lra). assert (P2 : 0 <= orient c a p * orient x y b) by (apply Rmult_le_pos; lra). assert (P3 : 0 <= orient a b p * orient x y c) by (apply Rmult_le_pos; lra).
    apply Rmult_le_reg_l with (orient a b c); lra. }
  intros a b c x y p N O A B C. destruct (Rlt_le_dec 0 (orient a b c)) as [H|H]; [eapply G; eauto|].
  apply (G b a c x y p); auto; [rewrite or_swap; lra|apply closed_swap; auto].
Qed.

(** Two triangles of edges of a convex polygon and a point outside. *)
Lemma fan_open : forall x y z w q p, orient x y q < 0 -> orient z w q < 0 -> 0 <= orient x y z -> 0 <= orient x y w -> 0 <= orient z w x -> 0 <= orient z w y ->
  0 < orient z w x \/ 0 < orient z w y -> in_open x y q p -> in_open z w q p -> False.
Proof.
  intros x y z w q p E F A1 A2 B1 B2 S O1 O2.
  apply open_swap in O1. apply open_swap in O2. apply open_pos in O1; [|rewrite or_swap; lra]. apply open_pos in O2; [|rewrite or_swap; lra].
  destruct O1 as (U1 & U2 & U3). destruct O2 as (V1 & V2 & V3).
  (* f = orient z w, g = orient x y *)
  pose proof (or_bary y x q z w p) as I1. pose proof (or_bary w z q x y p) as I2.
  rewrite (or_swap x y q), (or_swap x y p) in *. rewrite (or_swap z w q), (or_swap z w p) in *.
  set (gq := - orient x y q) in *. set (fq := - orient z w q) in *. set (gp := - orient x y p) in *. set (fp := - orient z w p) in *.
  assert (E' : 0 < gq) by (unfold gq; lra). assert (F' : 0 < fq) by (unfold fq; lra).
  replace (orient x y q) with (- gq) in * by (unfold gq; ring). replace (orient x y p) with (- gp) in * by (unfold gp; ring).
  replace (orient z w q) with (- fq) in * by (unfold fq; ring). replace (orient z w p) with (- fp) in * by (unfold fp; ring).
  clearbody gq fq gp fp.
  (* gq (- fp) = .. f(y) + .. f(x) - gp fq,  fq (- gp) = .. - fp gq *)
  assert (P1 : 0 < orient x q p * orient z w y + orient q y p * orient z w x).
  { assert (0 <= orient x q p * orient z w y) by (apply Rmult_le_pos; lra). assert (0 <= orient q y p * orient z w x) by (apply Rmult_le_pos; lra).
    destruct S as [S|S]; [assert (0 < orient q y p * orient z w x) by (apply Rmult_lt_0_compat; lra)|assert (0 < orient x q p * orient z w y) by (apply Rmult_lt_0_compat; lra)]; lra. }
  assert (P2 : 0 <= orient z q p * orient x y w) by (apply Rmult_le_pos; lra). assert (P3 : 0 <= orient q w p * orient x y z) by (apply Rmult_le_pos; lra).
  lra.
Qed.

(** The new boundary edges. *)
Lemma tangent1 : forall x a b q v, 0 < orient x a q -> orient a b q < 0 -> 0 < orient a b x -> 0 <= orient x a v -> 0 <= orient a b v -> 0 < orient x a v \/ 0 < orient a b v -> 0 < orient a q v.
Proof.
  intros x a b q v H1 H2 H3 H4 H5 H6.
  assert (E : orient a b x * orient a q v = orient x a v * (- orient a b q) + orient a b v * orient x a q).
  { destruct x as [x1 x2], a as [a1 a2], b as [b1 b2], q as [q1 q2], v as [v1 v2]. unfold orient. cbn [px py]. ring. }
  assert (0 <= orient x a v * (- orient a b q)) by (apply Rmult_le_pos; lra). assert (0 <= orient a b v * orient x a q) by (apply Rmult_le_pos; lra).
  assert (0 < orient a b x * orient a q v).
  { rewrite E. destruct H6 as [S|S]; [assert (0 < orient x a v * (- orient a b q)) by (apply Rmult_lt_0_compat; lra)|assert (0 < orient a b v * orient x a q) by (apply Rmult_lt_0_compat; lra)]; lra. }
  apply Rmult_lt_reg_l with (orient a b x); lra.
Qed.
Lemma tangent2 : forall a b y q v, 0 < orient b y q -> orient a b q < 0 -> 0 < orient a b y -> 0 <= orient b y v -> 0 <= orient a b v -> 0 < orient b y v \/ 0 < orient a b v -> 0 < orient q b v.
Proof.
  intros a b y q v H1 H2 H3 H4 H5 H6.
  assert (E : orient a b y * orient q b v = orient b y v * (- orient a b q) + orient a b v * orient b y q).
  { destruct y as [x1 x2], a as [a1 a2], b as [b1 b2], q as [q1 q2], v as [v1 v2]. unfold orient. cbn [px py]. ring. }
  assert (0 <= orient b y v * (- orient a b q)) by (apply Rmult_le_pos; lra). assert (0 <= orient a b v * orient b y q) by (apply Rmult_le_pos; lra).
  assert (0 < orient a b y * orient q b v).
  { rewrite E. destruct H6 as [S|S]; [assert (0 < orient b y v * (- orient a b q)) by (apply Rmult_lt_0_compat; lra)|assert (0 < orient a b v * orient b y q) by (apply Rmult_lt_0_compat; lra)]; lra. }
  apply Rmult_lt_reg_l with (orient a b y); lra.
Qed.

(** p is seen from q between x and y: it is in the triangle x y q unless it is on the left of x y, and then
    it is on the left of every edge z w that has x and y on its left and q on its right. *)
Lemma behind : forall x y z w q p, orient x y q < 0 -> 0 <= orient x q p -> 0 <= orient q y p -> 0 < orient x y p ->
  0 <= orient z w x -> 0 <= orient z w y -> orient z w q < 0 -> 0 <= orient z w p.
Proof.
  intros x y z w q p H1 H2 H3 H4 A B C. apply Rnot_lt_le. intros N.
  pose proof (or_bary y x q z w p) as I. rewrite (or_swap x y q), (or_swap x y p) in I. pose proof (or_sum y x q p) as S. rewrite (or_swap x y q), (or_swap x y p) in S.
  (* - g(q) f(p) = [x q p] f(y) + [q y p] f(x) - g(p) f(q) *)
  assert (0 <= orient x q p * orient z w y) by (apply Rmult_le_pos; lra). assert (0 <= orient q y p * orient z w x) by (apply Rmult_le_pos; lra).
  assert (0 < orient x y p * (- orient z w q)) by (apply Rmult_lt_0_compat; lra). assert (0 < (- orient x y q) * (- orient z w p)) by (apply Rmult_lt_0_compat; lra). lra.
Qed.

(** * The triangles after the insertion *)
Record inserted (st st' : dst RA) (ip : nat) (es : list edge) : Prop := {
  in_cons : consistent st'; in_pts : dpts st' = dpts st; in_nd : NoDup es; in_ndb : NoDup (dbnd st');
  in_len : length (dtris st') = (length (dtris st) + length es)%nat;
  in_old : forall k, (k < length (dtris st))%nat -> nth_error (dtris st') k = nth_error (dtris st) k;
  in_new : forall n v, (n < length es)%nat -> (has st' (length (dtris st) + n) v <-> exists e, nth_error es n = Some e /\ (v = fst e \/ v = snd e \/ v = ip));
  in_vis : forall e, In e es <-> In e (dbnd st) /\ isEdgeVisible (dpts st) ip e = Ok true;
  in_bnd : forall a b, In (a, b) (dbnd st') <-> (In (a, b) (dbnd st) /\ ~ In (a, b) es) \/
       ((exists e, In e es /\ ((a = fst e /\ b = ip) \/ (a = ip /\ b = snd e))) /\ sole st' a b) }.

Lemma insert_inserted : forall (st : dst RA) ip, consistent st -> (ip < length (dpts st))%nat -> outline st -> ~ used st ip ->
  exists st' es, addPoint_insert st ip = Ok st' /\ inserted st st' ip es.
Proof.
  intros st ip C LI O NU.
  destruct (insert_spec RA st ip C LI) as (st' & es & ts & E & C' & D1 & D3 & HE & F2 & HB & ND).
  { intros a b I. destruct (ol_edge st O a b I) as (AB & k & S). assert (has st k a /\ has st k b) as [Ka Kb] by (apply S; reflexivity).
    split; [exact AB|]. split; [intros ->; apply NU; exists k; auto|]. split; [intros ->; apply NU; exists k; auto|]. exists k. auto. }
  exists st', es. split; [exact E|]. destruct (ND (ol_nd st O)) as [N1 N2].
  assert (LT : length es = length ts) by (clear - F2; induction F2; cbn; auto).
  assert (FN : forall n e, nth_error es n = Some e -> exists t, nth_error ts n = Some t /\ forall v, In v (tri_list t) <-> v = fst e \/ v = snd e \/ v = ip).
  { clear - F2. induction F2 as [|e t l l' H F IH]; intros [|n] e' N; cbn in N; try discriminate; [injection N as <-; exists t; auto|]. apply IH. exact N. }
  constructor; auto.
  - rewrite D3, app_length. lia.
  - intros k K. rewrite D3. apply nth_error_app1. exact K.
  - intros n v L. destruct (nth_error es n) as [e|] eqn:En; [|apply nth_error_None in En; lia]. destruct (FN n e En) as (t & T1 & T2).
    assert (N' : nth_error (dtris st') (length (dtris st) + n) = Some t) by (rewrite D3, nth_error_app2 by lia; replace (length (dtris st) + n - length (dtris st))%nat with n by lia; exact T1).
    rewrite (has_nth st' _ _ _ N'), T2. split; [intros H; exists e; auto|]. intros (e' & [= <-] & H). exact H.
  - intros a b. rewrite (HB a b). split; (intros [H|H]; [left|right]).
    + destruct H as [I N]. split; [exact I|]. intros J. apply N. apply HE. exact J.
    + destruct H as [(e & V & H) S]. split; [exists e; split; [apply HE; exact V|exact H]|exact S].
    + destruct H as [I N]. split; [exact I|]. intros J. apply N. apply HE. exact J.
    + destruct H as [(e & V & H) S]. split; [exists e; split; [apply HE; exact V|exact H]|exact S].
Qed.

Lemma nlt : forall (l : list edge) n (e : edge), nth_error l n = Some e -> (n < length l)%nat.
Proof. intros l n e H. apply nth_error_Some. rewrite H. discriminate. Qed.
Lemma nth_same : forall (l : list edge) n n' (e : edge), NoDup l -> nth_error l n = Some e -> nth_error l n' = Some e -> n = n'.
Proof. intros l n n' e N E E'. apply (proj1 (NoDup_nth_error l) N); [apply (nlt l n e E)|rewrite E, E'; reflexivity]. Qed.
Lemma nth_fun : forall (l : list edge) n (e e' : edge), nth_error l n = Some e -> nth_error l n = Some e' -> e = e'.
Proof. intros. congruence. Qed.
Lemma exists_in : forall (X : Type) (l : list X), l <> [] -> exists x, In x l.
Proof. intros X [|x l] H; [congruence|]. exists x. cbn. auto. Qed.

Section Ins.
Variables (st st' : dst RA) (ip : nat) (es : list edge) (q : pt RA).
Hypothesis FI : fine st.
Hypothesis OL : outline st.
Hypothesis GP : general (dpts st).
Hypothesis NU : ~ used st ip.
Hypothesis EQ : nth_error (dpts st) ip = Some q.
Hypothesis IN : inserted st st' ip es.

Lemma used_pt : forall v, used st v -> exists p, nth_error (dpts st) v = Some p.
Proof. intros v (k & H). apply point_at. apply (has_lt RA st k v (fi_cons _ FI) H). Qed.
Lemma edge_used : forall i j, In (i, j) (dbnd st) -> i <> j /\ used st i /\ used st j /\ i <> ip /\ j <> ip.
Proof.
  intros i j I. destruct (ol_edge st OL i j I) as (IJ & k & S). assert (has st k i /\ has st k j) as [Ki Kj] by (apply S; reflexivity).
  assert (U1 : used st i) by (exists k; auto). assert (U2 : used st j) by (exists k; auto). repeat split; auto; intros ->; auto.
Qed.
Lemma vis_bnd : forall e, In e es -> In e (dbnd st).
Proof. intros e I. apply (in_vis _ _ _ _ IN) in I. tauto. Qed.
Lemma vis_dec : forall e, In e (dbnd st) -> In e es \/ ~ In e es.
Proof. intros e _. destruct (in_dec (fun a b : edge => ltac:(decide equality; apply Nat.eq_dec)) e es); auto. Qed.
Lemma vis_val : forall i j a b, In (i, j) (dbnd st) -> nth_error (dpts st) i = Some a -> nth_error (dpts st) j = Some b ->
  (In (i, j) es <-> orient a b q < 1 / 10 ^ 8) /\ 1 / 10 ^ 8 < Rabs (orient a b q).
Proof.
  intros i j a b I Ea Eb. assert (SS : forall k p, nth_error (dpts st) k = Some p -> stored p) by (intros k p E; apply nth_error_In in E; pose proof (fi_st _ FI) as SP; rewrite Forall_forall in SP; auto).
  destruct (visible_spec (dpts st) i j ip q a b EQ Ea Eb (SS _ _ EQ) (SS _ _ Ea) (SS _ _ Eb)) as [_ V]. rewrite (or_rot q a b), (or_rot b q a) in V || idtac.
  replace (orient q a b) with (orient a b q) in V by (unfold orient; ring).
  destruct (edge_used i j I) as (IJ & _ & _ & I1 & I2). split.
  - rewrite (in_vis _ _ _ _ IN), V. destruct (Rlt_dec _ _) as [L|L]; split; auto; [intros [_ H]; discriminate|intros H; contradiction].
  - apply (GP i j ip); auto.
Qed.
Lemma vis_neg : forall i j a b, In (i, j) es -> nth_error (dpts st) i = Some a -> nth_error (dpts st) j = Some b -> orient a b q < 0.
Proof.
  intros i j a b I Ea Eb. destruct (vis_val i j a b (vis_bnd _ I) Ea Eb) as [V G]. apply V in I. apply Rnot_le_lt. intros N. rewrite Rabs_right in G by lra. lra.
Qed.
Lemma invis_pos : forall i j a b, In (i, j) (dbnd st) -> ~ In (i, j) es -> nth_error (dpts st) i = Some a -> nth_error (dpts st) j = Some b -> 0 < orient a b q.
Proof.
  intros i j a b I N Ea Eb. destruct (vis_val i j a b I Ea Eb) as [V _]. apply Rnot_le_lt. intros L. apply N, V. lra.
Qed.
Lemma no_rev : forall i j, In (i, j) (dbnd st) -> In (j, i) (dbnd st) -> False.
Proof.
  intros i j I J. destruct (ol_edge st OL i j I) as (IJ & k & S). assert (has st k i /\ has st k j) as [Ki Kj] by (apply S; reflexivity).
  destruct (third RA st k i j (fi_cons _ FI) Ki Kj IJ) as (u & Hu & Ui & Uj & _). assert (U : used st u) by (exists k; auto).
  destruct (used_pt u U) as (c & Ec). destruct (used_pt i) as (a & Ea); [exists k; auto|]. destruct (used_pt j) as (b & Eb); [exists k; auto|].
  pose proof (ol_left st OL i j u a b c I U Ui Uj Ea Eb Ec) as H1. pose proof (ol_left st OL j i u b a c J U Uj Ui Eb Ea Ec) as H2. rewrite or_swap in H2. lra.
Qed.
Lemma out_unique : forall i j j', In (i, j) (dbnd st) -> In (i, j') (dbnd st) -> j = j'.
Proof.
  intros i j j' I J. destruct (Nat.eq_dec j j') as [|N]; [auto|exfalso]. destruct (edge_used _ _ I) as (IJ & U1 & U2 & _). destruct (edge_used _ _ J) as (IJ' & _ & U3 & _).
  destruct (used_pt _ U1) as (a & Ea). destruct (used_pt _ U2) as (b & Eb). destruct (used_pt _ U3) as (c & Ec).
  pose proof (ol_left st OL i j j' a b c I U3 ltac:(auto) ltac:(auto) Ea Eb Ec) as H1. pose proof (ol_left st OL i j' j a c b J U2 ltac:(auto) ltac:(auto) Ea Ec Eb) as H2. rewrite or_mid in H2. lra.
Qed.
Lemma in_unique : forall i i' j, In (i, j) (dbnd st) -> In (i', j) (dbnd st) -> i = i'.
Proof.
  intros i i' j I J. destruct (Nat.eq_dec i i') as [|N]; [auto|exfalso]. destruct (edge_used _ _ I) as (IJ & U1 & U2 & _). destruct (edge_used _ _ J) as (IJ' & U3 & _).
  destruct (used_pt _ U1) as (a & Ea). destruct (used_pt _ U2) as (b & Eb). destruct (used_pt _ U3) as (c & Ec).
  pose proof (ol_left st OL i j i' a b c I U3 ltac:(auto) ltac:(auto) Ea Eb Ec) as H1. pose proof (ol_left st OL i' j i c b a J U1 ltac:(auto) ltac:(auto) Ec Eb Ea) as H2.
  replace (orient c b a) with (- orient a b c) in H2 by (unfold orient; ring). lra.
Qed.
Lemma left0 : forall i j v a b c, In (i, j) (dbnd st) -> used st v -> nth_error (dpts st) i = Some a -> nth_error (dpts st) j = Some b -> nth_error (dpts st) v = Some c -> 0 <= orient a b c.
Proof.
  intros i j v a b c I U Ea Eb Ec. destruct (or_same a b) as (Z1 & Z2 & _).
  destruct (Nat.eq_dec v i) as [->|Vi]; [rewrite Ea in Ec; injection Ec as <-; lra|]. destruct (Nat.eq_dec v j) as [->|Vj]; [rewrite Eb in Ec; injection Ec as <-; lra|].
  left. apply (ol_left st OL i j v); auto.
Qed.

(** Triangles of the new state. *)
Lemma has_ins : forall k v, has st' k v <-> ((k < length (dtris st))%nat /\ has st k v) \/
  exists n i j, k = (length (dtris st) + n)%nat /\ nth_error es n = Some (i, j) /\ (v = i \/ v = j \/ v = ip).
Proof.
  intros k v. destruct (lt_dec k (length (dtris st))) as [L|L].
  - unfold has. rewrite (in_old _ _ _ _ IN k L). split; [auto|]. intros [[_ H]|(n & i & j & -> & _)]; [exact H|lia].
  - split.
    + intros H. right. exists (k - length (dtris st))%nat. assert (K : k = (length (dtris st) + (k - length (dtris st)))%nat) by lia. rewrite K in H at 1.
      assert (LN : (k - length (dtris st) < length es)%nat).
      { destruct H as (t & E & _). assert (NE : nth_error (dtris st') (length (dtris st) + (k - length (dtris st))) <> None) by congruence. apply nth_error_Some in NE. rewrite (in_len _ _ _ _ IN) in NE. lia. }
      apply (in_new _ _ _ _ IN _ v LN) in H. destruct H as ([i j] & E & H). exists i, j. auto.
    + intros [[H _]|(n & i & j & -> & E & H)]; [lia|]. apply (in_new _ _ _ _ IN). { exact (nlt es n _ E). } exists (i, j). auto.
Qed.
Lemma new_tri : forall i j, In (i, j) es -> exists k, (length (dtris st) <= k)%nat /\ forall v, has st' k v <-> v = i \/ v = j \/ v = ip.
Proof.
  intros i j I. apply In_nth_error in I. destruct I as (n & E). exists (length (dtris st) + n)%nat. split; [lia|]. intros v.
  rewrite (in_new _ _ _ _ IN n v) by exact (nlt es n _ E). split; [intros (e & E' & H); pose proof (nth_fun es n _ _ E E') as X; subst e; exact H|]. intros H. exists (i, j). auto.
Qed.
Lemma ip_tri : forall k v, has st' k ip -> has st' k v -> v <> ip -> exists i j, In (i, j) es /\ (v = i \/ v = j) /\ forall v', has st' k v' <-> v' = i \/ v' = j \/ v' = ip.
Proof.
  intros k v H1 H2 N. apply has_ins in H1. destruct H1 as [[_ H1]|(n & i & j & -> & E & _)]; [exfalso; apply NU; exists k; exact H1|].
  exists i, j. split; [apply nth_error_In in E; exact E|].
  assert (HV : forall v', has st' (length (dtris st) + n) v' <-> v' = i \/ v' = j \/ v' = ip).
  { intros v'. rewrite (in_new _ _ _ _ IN n v') by exact (nlt es n _ E). split; [intros (e & E' & H); pose proof (nth_fun es n _ _ E E') as X; subst e; exact H|]. intros H. exists (i, j). auto. }
  split; [|exact HV]. apply HV in H2. destruct H2 as [H|[H|H]]; [auto|auto|contradiction].
Qed.
Lemma new_tri_unique : forall i j k k', In (i, j) es -> has st' k ip -> has st' k i -> has st' k j -> has st' k' ip -> has st' k' i -> has st' k' j -> k = k'.
Proof.
  intros i j k k' I P1 P2 P3 Q1 Q2 Q3. destruct (edge_used i j (vis_bnd _ I)) as (IJ & _ & _ & I1 & I2).
  assert (G : forall k, has st' k ip -> has st' k i -> has st' k j -> exists n, k = (length (dtris st) + n)%nat /\ nth_error es n = Some (i, j)).
  { clear k k' P1 P2 P3 Q1 Q2 Q3. intros k P1 P2 P3. apply has_ins in P1. destruct P1 as [[_ H1]|(n & x & y & -> & E & _)]; [exfalso; apply NU; exists k; exact H1|].
    exists n. split; [reflexivity|]. apply has_ins in P2, P3.
    destruct P2 as [[L _]|(n2 & x2 & y2 & K2 & E2 & H2)]; [lia|]. assert (n2 = n) by lia. subst n2. pose proof (nth_fun es n _ _ E E2) as X2. injection X2 as <- <-.
    destruct P3 as [[L _]|(n3 & x3 & y3 & K3 & E3 & H3)]; [lia|]. assert (n3 = n) by lia. subst n3. pose proof (nth_fun es n _ _ E E3) as X3. injection X3 as <- <-.
    assert (XY : (x = i /\ y = j) \/ (x = j /\ y = i)) by (clear - H2 H3 IJ I1 I2; lia). destruct XY as [[-> ->]|[-> ->]]; [exact E|].
    exfalso. apply (no_rev i j (vis_bnd _ I)). apply vis_bnd. apply nth_error_In in E. exact E. }
  destruct (G k P1 P2 P3) as (n & -> & E). destruct (G k' Q1 Q2 Q3) as (n' & -> & E'). f_equal.
  exact (nth_same es _ _ _ (in_nd _ _ _ _ IN) E E').
Qed.

(** Edges to the new point with one triangle. *)
Lemma sole_out : forall a b, In (a, b) es -> (sole st' a ip <-> forall x, ~ In (x, a) es).
Proof.
  intros a b I. destruct (edge_used a b (vis_bnd _ I)) as (AB & _ & _ & A1 & A2). destruct (new_tri a b I) as (k & _ & K). split.
  - intros (k0 & S) x J. destruct (edge_used x a (vis_bnd _ J)) as (XA & _ & _ & X1 & _). destruct (new_tri x a J) as (k' & _ & K').
    assert (k = k0) by (apply S; rewrite !K; auto). assert (k' = k0) by (apply S; rewrite !K'; auto). subst k k'.
    assert (H : has st' k0 b) by (apply K; auto). apply K' in H. destruct H as [-> | [-> | ->]]; try congruence. apply (no_rev a x (vis_bnd _ I) (vis_bnd _ J)).
  - intros N. exists k. intros k'. split; [|intros ->; rewrite !K; auto]. intros [H1 H2].
    destruct (ip_tri k' a H2 H1 A1) as (i & j & J & AIJ & HV). assert (a = i) as <-. { destruct AIJ as [-> | ->]; [reflexivity|]. exfalso. apply (N i). exact J. }
    assert (b = j) as <- by (apply (out_unique a); apply vis_bnd; auto). apply (new_tri_unique a b k' k I); auto; (apply HV || apply K); auto.
Qed.
Lemma sole_in : forall a b, In (a, b) es -> (sole st' ip b <-> forall y, ~ In (b, y) es).
Proof.
  intros a b I. destruct (edge_used a b (vis_bnd _ I)) as (AB & _ & _ & A1 & A2). destruct (new_tri a b I) as (k & _ & K). split.
  - intros (k0 & S) y J. destruct (edge_used b y (vis_bnd _ J)) as (BY & _ & _ & _ & Y1). destruct (new_tri b y J) as (k' & _ & K').
    assert (k = k0) by (apply S; rewrite !K; auto). assert (k' = k0) by (apply S; rewrite !K'; auto). subst k k'.
    assert (H : has st' k0 a) by (apply K; auto). apply K' in H. destruct H as [-> | [-> | ->]]; try congruence. apply (no_rev y b (vis_bnd _ I) (vis_bnd _ J)).
  - intros N. exists k. intros k'. split; [|intros ->; rewrite !K; auto]. intros [H2 H1].
    destruct (ip_tri k' b H2 H1 A2) as (i & j & J & AIJ & HV). assert (b = j) as <-. { destruct AIJ as [-> | ->]; [|reflexivity]. exfalso. apply (N j). exact J. }
    assert (a = i) as <- by (apply (in_unique a i b); apply vis_bnd; auto). apply (new_tri_unique a b k' k I); auto; (apply HV || apply K); auto.
Qed.
Lemma bnd_cases : forall i j, In (i, j) (dbnd st') <->
  (In (i, j) (dbnd st) /\ ~ In (i, j) es) \/
  (j = ip /\ exists b, In (i, b) es /\ forall x, ~ In (x, i) es) \/
  (i = ip /\ exists a, In (a, j) es /\ forall y, ~ In (j, y) es).
Proof.
  intros i j. rewrite (in_bnd _ _ _ _ IN). split.
  - intros [H|[([x y] & I & [[-> ->]|[-> ->]]) S]]; [auto| |]; cbn [fst snd] in *; right; [left|right]; (split; [reflexivity|]).
    + exists y. split; [exact I|]. apply (sole_out x y I). exact S.
    + exists x. split; [exact I|]. apply (sole_in x y I). exact S.
  - intros [H|[(-> & b & I & N)|(-> & a & I & N)]]; [auto|right|right].
    + split; [exists (i, b); auto|]. apply (sole_out i b I). exact N.
    + split; [exists (a, j); auto|]. apply (sole_in a j I). exact N.
Qed.

(** * Planarity *)
Lemma corners_ins : forall k a b c, corners st' k a b c -> ((k < length (dtris st))%nat /\ corners st k a b c) \/
  exists n i j x y, k = (length (dtris st) + n)%nat /\ nth_error es n = Some (i, j) /\ nth_error (dpts st) i = Some x /\ nth_error (dpts st) j = Some y /\ same_tri a b c x y q.
Proof.
  intros k a b c CR. destruct (lt_dec k (length (dtris st))) as [L|L].
  - left. split; [exact L|]. destruct CR as (x & y & z & E & H). exists x, y, z. rewrite (in_old _ _ _ _ IN k L) in E. rewrite (in_pts _ _ _ _ IN) in H. auto.
  - right. destruct (corners_has _ _ _ _ _ CR) as (x & y & z & Hx & _). apply has_ins in Hx. destruct Hx as [[L' _]|(n & i & j & -> & E & _)]; [lia|].
    pose proof (nth_error_In _ _ E) as I. destruct (edge_used i j (vis_bnd _ I)) as (IJ & U1 & U2 & I1 & I2). destruct (used_pt _ U1) as (X & EX). destruct (used_pt _ U2) as (Y & EY).
    exists n, i, j, X, Y. split; [reflexivity|]. split; [exact E|]. split; [exact EX|]. split; [exact EY|].
    assert (HV : forall v, v = i \/ v = j \/ v = ip -> has st' (length (dtris st) + n) v) by (intros v H; apply has_ins; right; exists n, i, j; auto).
    apply (corners_perm st' (length (dtris st) + n) i j ip X Y q); auto; rewrite (in_pts _ _ _ _ IN); auto.
Qed.
Lemma old_left : forall k a b c i j x y, corners st k a b c -> In (i, j) (dbnd st) -> nth_error (dpts st) i = Some x -> nth_error (dpts st) j = Some y ->
  0 <= orient x y a /\ 0 <= orient x y b /\ 0 <= orient x y c /\ (0 < orient x y a \/ 0 < orient x y b \/ 0 < orient x y c).
Proof.
  intros k a b c i j x y CR I Ei Ej. destruct (corners_has _ _ _ _ _ CR) as (u & v & w & Hu & Hv & Hw & ET & Eu & Ev & Ew).
  destruct (cs_tri st (fi_cons _ FI) _ _ ET) as [ND _].
  assert (U1 : used st u) by (exists k; auto). assert (U2 : used st v) by (exists k; auto). assert (U3 : used st w) by (exists k; auto).
  split; [apply (left0 i j u); auto|]. split; [apply (left0 i j v); auto|]. split; [apply (left0 i j w); auto|].
  assert (D : u <> v /\ u <> w /\ v <> w). { cbn in ND. inversion ND as [|? ? N1 N2]; subst. inversion N2 as [|? ? N3 N4]; subst. cbn in N1, N3. intuition. }
  assert (X : (u <> i /\ u <> j) \/ (v <> i /\ v <> j) \/ (w <> i /\ w <> j)) by (clear - D; lia).
  destruct X as [[X1 X2]|[[X1 X2]|[X1 X2]]]; [left; apply (ol_left st OL i j u)|right; left; apply (ol_left st OL i j v)|right; right; apply (ol_left st OL i j w)]; auto.
Qed.
Lemma ins_planar : planar st'.
Proof.
  assert (ON : forall k l a b c d e f p n i j x y, corners st k a b c -> (k < length (dtris st))%nat -> l = (length (dtris st) + n)%nat -> nth_error es n = Some (i, j) -> nth_error (dpts st) i = Some x -> nth_error (dpts st) j = Some y ->
    same_tri d e f x y q -> in_open a b c p -> in_open d e f p -> False).
  { intros k l a b c d e f p n i j x y CR _ _ E Ei Ej S P1 P2. apply nth_error_In in E. apply (proj1 S) in P2.
    destruct (old_left k a b c i j x y CR (vis_bnd _ E) Ei Ej) as (A & B & D & Z). pose proof (side_open a b c x y p (proj1 (fi_pl _ FI) _ _ _ _ CR) P1 A B D Z) as L.
    pose proof (vis_neg i j x y E Ei Ej) as N. apply open_swap in P2. apply open_pos in P2; [|rewrite or_swap; lra]. rewrite or_swap in P2. lra. }
  split.
  - intros k a b c CR. destruct (corners_ins k a b c CR) as [[_ CR']|(n & i & j & x & y & -> & E & Ei & Ej & S)]; [apply (proj1 (fi_pl _ FI) k); exact CR'|].
    apply nth_error_In in E. pose proof (vis_neg i j x y E Ei Ej) as N. destruct S as (_ & _ & S & _). intros Z. rewrite Z, Rabs_R0 in S. symmetry in S. apply Rabs_no_R0 in S; lra.
  - intros k l a b c d e f p CK CL PK PL.
    destruct (corners_ins k a b c CK) as [[K CK']|(n & i & j & x & y & K & E & Ei & Ej & S)]; destruct (corners_ins l d e f CL) as [[L CL']|(n' & i' & j' & x' & y' & L & E' & Ei' & Ej' & S')].
    + apply (proj2 (fi_pl _ FI) k l a b c d e f p); auto.
    + exfalso. eapply (ON k l a b c d e f p); eauto.
    + exfalso. eapply (ON l k d e f a b c p); eauto.
    + subst k l. f_equal. destruct (Nat.eq_dec n n') as [|NN]; [auto|exfalso].
      assert (NE : (i, j) <> (i', j')). { intros [= -> ->]. apply NN. exact (nth_same es _ _ _ (in_nd _ _ _ _ IN) E E'). }
      apply nth_error_In in E, E'. pose proof (vis_bnd _ E) as B. pose proof (vis_bnd _ E') as B'.
      destruct (edge_used _ _ B) as (IJ & U1 & U2 & _). destruct (edge_used _ _ B') as (IJ' & U3 & U4 & _).
      apply (proj1 S) in PK. apply (proj1 S') in PL.
      apply (fan_open x y x' y' q p); auto; [apply (vis_neg i j); auto|apply (vis_neg i' j'); auto|apply (left0 i j i'); auto|apply (left0 i j j'); auto|apply (left0 i' j' i); auto|apply (left0 i' j' j); auto|].
      assert (X : (i <> i' /\ i <> j') \/ (j <> i' /\ j <> j')).
      { destruct (Nat.eq_dec i i') as [->|]; [right; split; auto; intros ->; apply NE; reflexivity|]. destruct (Nat.eq_dec i j') as [->|]; [|left; auto].
        right. split; [intros ->; apply (no_rev i' j'); auto|auto]. }
      destruct X as [[X1 X2]|[X1 X2]]; [left; apply (ol_left st OL i' j' i)|right; apply (ol_left st OL i' j' j)]; auto.
Qed.

(** * The new boundary *)
Lemma starts_nd : NoDup (map fst es) /\ NoDup (map snd es).
Proof.
  assert (G : forall (f : edge -> nat) l, NoDup l -> (forall e e', In e l -> In e' l -> f e = f e' -> e = e') -> NoDup (map f l)).
  { clear. intros f. induction l as [|e l IH]; intros N H; cbn; [constructor|]. inversion N as [|? ? N1 N2]; subst. constructor.
    - rewrite in_map_iff. intros (e' & E & I). apply N1. rewrite (H e e'); cbn; auto.
    - apply IH; auto. intros e1 e2 I1 I2. apply H; cbn; auto. }
  split; apply G; try apply (in_nd _ _ _ _ IN); intros [a b] [c d] I J; cbn [fst snd]; intros ->; f_equal.
  - apply (out_unique c); apply vis_bnd; auto.
  - apply (in_unique a c d); apply vis_bnd; auto.
Qed.
Lemma In_start : forall a, In a (map fst es) <-> exists b, In (a, b) es.
Proof. intros a. rewrite in_map_iff. split; [intros ([x y] & <- & I); exists y; auto|intros (b & I); exists (a, b); auto]. Qed.
Lemma In_end : forall b, In b (map snd es) <-> exists a, In (a, b) es.
Proof. intros a. rewrite in_map_iff. split; [intros ([x y] & <- & I); exists x; auto|intros (b & I); exists (b, a); auto]. Qed.
Lemma chain_end : forall a, In a (map fst es) -> ~ In a (map snd es) -> exists x y, In (x, y) es /\ forall z, ~ In (y, z) es.
Proof.
  intros a Ia Na. destruct (Exists_dec (fun y => ~ In y (map fst es)) (map snd es)) as [E|E].
  - intros y. destruct (in_dec Nat.eq_dec y (map fst es)); [right|left]; auto.
  - apply Exists_exists in E. destruct E as (y & I & N). apply In_end in I. destruct I as (x & I). exists x, y. split; [exact I|]. intros z J. apply N, In_start. eauto.
  - exfalso. apply Na. destruct starts_nd as [S1 S2]. apply (NoDup_length_incl S2 (l' := map fst es)); [rewrite !map_length; lia| |exact Ia].
    intros y I. destruct (in_dec Nat.eq_dec y (map fst es)) as [|N]; [auto|]. exfalso. apply E, Exists_exists. eauto.
Qed.
Lemma chain_start : forall b, In b (map snd es) -> ~ In b (map fst es) -> exists x y, In (x, y) es /\ forall z, ~ In (z, x) es.
Proof.
  intros a Ia Na. destruct (Exists_dec (fun y => ~ In y (map snd es)) (map fst es)) as [E|E].
  - intros y. destruct (in_dec Nat.eq_dec y (map snd es)); [right|left]; auto.
  - apply Exists_exists in E. destruct E as (y & I & N). apply In_start in I. destruct I as (x & I). exists y, x. split; [exact I|]. intros z J. apply N, In_end. eauto.
  - exfalso. apply Na. destruct starts_nd as [S1 S2]. apply (NoDup_length_incl S1 (l' := map snd es)); [rewrite !map_length; lia| |exact Ia].
    intros y I. destruct (in_dec Nat.eq_dec y (map snd es)) as [|N]; [auto|]. exfalso. apply E, Exists_exists. eauto.
Qed.

Definition at_ (v : nat) : pt RA := match nth_error (dpts st) v with Some p => p | None => @mkpt RA 0 0 end.
Definition rsum (l : list R) : R := fold_right Rplus 0 l.
Lemma rsum_perm : forall l l', Permutation.Permutation l l' -> rsum l = rsum l'.
Proof. intros l l' P. unfold rsum. induction P; cbn; lra. Qed.
(** The visible edges do not form cycles. *)
Lemma open_chain : es <> [] -> exists a b, In (a, b) es /\ forall x, ~ In (x, a) es.
Proof.
  intros NE. destruct (Exists_dec (fun y => ~ In y (map snd es)) (map fst es)) as [E|E].
  - intros y. destruct (in_dec Nat.eq_dec y (map snd es)); [right|left]; auto.
  - apply Exists_exists in E. destruct E as (a & I & N). apply In_start in I. destruct I as (b & I). exists a, b. split; [exact I|]. intros x J. apply N, In_end. eauto.
  - exfalso. destruct starts_nd as [S1 S2].
    assert (SUB : incl (map fst es) (map snd es)) by (intros y I; destruct (in_dec Nat.eq_dec y (map snd es)) as [|N]; [auto|]; exfalso; apply E, Exists_exists; eauto).
    assert (PM : Permutation.Permutation (map fst es) (map snd es)).
    { apply Permutation.NoDup_Permutation; auto. intros x. split; [apply SUB|]. apply (NoDup_length_incl S1 (l' := map snd es)); [rewrite !map_length; lia|exact SUB]. }
    assert (exists i0 j0, In (i0, j0) es) as (i0 & j0 & I0). { destruct es as [|[i0 j0] l]; [congruence|]. exists i0, j0. cbn. auto. }
    set (v := at_ i0). set (L := fun k => px (at_ k) * (py q - py v) - py (at_ k) * (px q - px v)).
    assert (SUM : forall l : list edge, rsum (map (fun e => orient (at_ (fst e)) (at_ (snd e)) q) l) = rsum (map (fun e => orient (at_ (fst e)) (at_ (snd e)) v) l) + rsum (map L (map snd l)) - rsum (map L (map fst l))).
    { unfold rsum. induction l as [|e l IH]; cbn [map fold_right]; [lra|]. rewrite IH. unfold L, orient. ring. }
    specialize (SUM es). rewrite (rsum_perm _ _ (Permutation.Permutation_map L PM)) in SUM.
    assert (AT : forall i, used st i -> nth_error (dpts st) i = Some (at_ i)) by (intros i U; destruct (used_pt i U) as (p & E'); unfold at_; rewrite E'; reflexivity).
    assert (NEG : forall l, incl l es -> l <> [] -> rsum (map (fun e => orient (at_ (fst e)) (at_ (snd e)) q) l) < 0).
    { assert (ONE : forall e, In e es -> orient (at_ (fst e)) (at_ (snd e)) q < 0).
      { intros [i j] I. destruct (edge_used i j (vis_bnd _ I)) as (_ & U1 & U2 & _). apply (vis_neg i j); auto. }
      unfold rsum. induction l as [|e l IH]; intros SB N; [congruence|]. cbn [map fold_right]. pose proof (ONE e (SB e (or_introl eq_refl))) as H1.
      destruct l as [|e' l]; [cbn; lra|]. specialize (IH ltac:(intros z Z; apply SB; right; auto) ltac:(discriminate)). lra. }
    assert (POS : forall l, incl l es -> 0 <= rsum (map (fun e => orient (at_ (fst e)) (at_ (snd e)) v) l)).
    { unfold rsum. induction l as [|[i j] l IH]; intros SB; cbn [map fold_right]; [lra|]. assert (I : In (i, j) es) by (apply SB; left; auto). specialize (IH ltac:(intros z Z; apply SB; right; auto)).
      destruct (edge_used i j (vis_bnd _ I)) as (_ & U1 & U2 & _). destruct (edge_used i0 j0 (vis_bnd _ I0)) as (_ & U3 & _).
      pose proof (left0 i j i0 (at_ i) (at_ j) v (vis_bnd _ I) U3 (AT _ U1) (AT _ U2) (AT _ U3)). cbn [fst snd]. lra. }
    pose proof (NEG es (incl_refl _) NE). pose proof (POS es (incl_refl _)). lra.
Qed.

Lemma used_ins : forall v, used st' v <-> used st v \/ (v = ip /\ es <> []).
Proof.
  intros v. split.
  - intros (k & H). apply has_ins in H. destruct H as [[_ H]|(n & i & j & -> & E & H)]; [left; exists k; auto|]. apply nth_error_In in E. destruct (edge_used i j (vis_bnd _ E)) as (_ & U1 & U2 & _).
    destruct H as [-> | [-> | ->]]; auto. right. split; [reflexivity|]. intros Z. rewrite Z in E. destruct E.
  - intros [(k & H)|[-> N]].
    + exists k. apply has_ins. left. split; [|exact H]. destruct H as (t & E & _). apply nth_error_Some. congruence.
    + destruct (exists_in _ es N) as ([i j] & I). destruct (new_tri i j I) as (k & _ & K). exists k. apply K. auto.
Qed.

Lemma ins_left : forall i j v a b c, In (i, j) (dbnd st') -> used st' v -> v <> i -> v <> j ->
  nth_error (dpts st) i = Some a -> nth_error (dpts st) j = Some b -> nth_error (dpts st) v = Some c -> 0 < orient a b c.
Proof.
  intros i j v a b c I U VI VJ Ea Eb Ec. apply used_ins in U. apply bnd_cases in I. destruct I as [[I N]|[(-> & y & I & N)|(-> & x & I & N)]].
  - destruct U as [U|[-> _]]; [apply (ol_left st OL i j v); auto|]. rewrite EQ in Ec. injection Ec as <-. apply (invis_pos i j); auto.
  - (* the edge from i to the new point *)
    destruct U as [U|[-> _]]; [|congruence]. rewrite EQ in Eb. injection Eb as <-.
    destruct (ol_prev st OL i y (vis_bnd _ I)) as (x & J). destruct (edge_used _ _ J) as (XI & Ux & _). destruct (edge_used _ _ (vis_bnd _ I)) as (IY & Ui & Uy & _).
    destruct (used_pt _ Ux) as (X & EX). destruct (used_pt _ Uy) as (Y & EY).
    assert (XY : x <> y) by (intros ->; apply (no_rev i y (vis_bnd _ I)); auto).
    apply (tangent1 X a Y q c).
    + apply (invis_pos x i); auto.
    + apply (vis_neg i y); auto.
    + apply (ol_left st OL i y x); auto. apply vis_bnd; auto.
    + apply (left0 x i v); auto.
    + apply (left0 i y v); auto. apply vis_bnd; auto.
    + destruct (Nat.eq_dec v x) as [->|]; [right; apply (ol_left st OL i y x); auto; apply vis_bnd; auto|left; apply (ol_left st OL x i v); auto].
  - destruct U as [U|[-> _]]; [|congruence]. rewrite EQ in Ea. injection Ea as <-.
    destruct (ol_next st OL x j (vis_bnd _ I)) as (y & J). destruct (edge_used _ _ J) as (JY & _ & Uy & _). destruct (edge_used _ _ (vis_bnd _ I)) as (XJ & Ux & Uj & _).
    destruct (used_pt _ Ux) as (X & EX). destruct (used_pt _ Uy) as (Y & EY).
    assert (XY : y <> x) by (intros ->; apply (no_rev x j (vis_bnd _ I)); auto).
    apply (tangent2 X b Y q c).
    + apply (invis_pos j y); auto.
    + apply (vis_neg x j); auto.
    + apply (ol_left st OL x j y); auto. apply vis_bnd; auto.
    + apply (left0 j y v); auto.
    + apply (left0 x j v); auto. apply vis_bnd; auto.
    + destruct (Nat.eq_dec v y) as [->|]; [right; apply (ol_left st OL x j y); auto; apply vis_bnd; auto|left; apply (ol_left st OL j y v); auto].
Qed.

Lemma ins_edge : forall i j, In (i, j) (dbnd st') -> i <> j /\ sole st' i j.
Proof.
  intros i j I. apply bnd_cases in I. destruct I as [[I N]|[(-> & y & I & N)|(-> & x & I & N)]].
  - destruct (edge_used _ _ I) as (IJ & _ & _ & I1 & I2). split; [exact IJ|]. destruct (ol_edge st OL i j I) as (_ & k & S). exists k. intros k'. rewrite !has_ins. split.
    + intros [H1 H2]. destruct H1 as [[L H1]|(n & x & y & -> & E & H1)].
      * destruct H2 as [[_ H2]|(n & x & y & -> & _)]; [apply S; auto|lia].
      * destruct H2 as [[L _]|(n' & x' & y' & K & E' & H2)]; [lia|]. assert (n' = n) by lia. subst n'. pose proof (nth_fun es n _ _ E E') as X. injection X as <- <-.
        apply nth_error_In in E. exfalso. assert (XY : (x = i /\ y = j) \/ (x = j /\ y = i)) by (clear - H1 H2 IJ I1 I2; lia). destruct XY as [[-> ->]|[-> ->]]; [auto|]. apply (no_rev i j I (vis_bnd _ E)).
    + intros ->. assert (has st k i /\ has st k j) as [Ki Kj] by (apply S; reflexivity). assert (L : (k < length (dtris st))%nat) by (destruct Ki as (t & E & _); apply nth_error_Some; congruence). auto.
  - destruct (edge_used _ _ (vis_bnd _ I)) as (_ & _ & _ & I1 & _). split; [exact I1|]. apply (sole_out i y I). exact N.
  - destruct (edge_used _ _ (vis_bnd _ I)) as (_ & _ & _ & _ & I2). split; [auto|]. apply (sole_in x j I). exact N.
Qed.
Lemma ins_next : forall i j, In (i, j) (dbnd st') -> exists k, In (j, k) (dbnd st').
Proof.
  intros i j I. apply bnd_cases in I. destruct I as [[I N]|[(-> & y & I & N)|(-> & x & I & N)]].
  - destruct (ol_next st OL i j I) as (k & J). destruct (vis_dec (j, k) J) as [V|V].
    + exists ip. apply bnd_cases. right; left. split; [reflexivity|]. exists k. split; [exact V|]. intros x X. assert (x = i) as -> by (apply (in_unique x i j); auto; apply vis_bnd; auto). auto.
    + exists k. apply bnd_cases. auto.
  - destruct (chain_end i) as (a & b & J & M); [apply In_start; eauto|rewrite In_end; intros (x & X); apply (N x); auto|]. exists b. apply bnd_cases. right; right. eauto.
  - destruct (ol_next st OL x j (vis_bnd _ I)) as (k & J). exists k. apply bnd_cases. auto.
Qed.
Lemma ins_prev : forall i j, In (i, j) (dbnd st') -> exists k, In (k, i) (dbnd st').
Proof.
  intros i j I. apply bnd_cases in I. destruct I as [[I N]|[(-> & y & I & N)|(-> & x & I & N)]].
  - destruct (ol_prev st OL i j I) as (k & J). destruct (vis_dec (k, i) J) as [V|V].
    + exists ip. apply bnd_cases. right; right. split; [reflexivity|]. exists k. split; [exact V|]. intros x X. assert (x = j) as -> by (apply (out_unique i); auto; apply vis_bnd; auto). auto.
    + exists k. apply bnd_cases. auto.
  - destruct (ol_prev st OL i y (vis_bnd _ I)) as (k & J). exists k. apply bnd_cases. auto.
  - destruct (chain_start j) as (a & b & J & M); [apply In_end; eauto|rewrite In_start; intros (y & Y); apply (N y); auto|]. exists a. apply bnd_cases. right; left. eauto.
Qed.

(** * The new triangles cover what has been added *)
Lemma cover_old : forall p, covered st p -> covered st' p.
Proof.
  intros p (k & a & b & c & (x & y & z & E & H) & HC). exists k, a, b, c. split; [|exact HC]. exists x, y, z. rewrite (in_old _ _ _ _ IN) by (apply nth_error_Some; congruence). rewrite (in_pts _ _ _ _ IN). auto.
Qed.
Lemma cover_new : forall i j a b p, In (i, j) es -> nth_error (dpts st) i = Some a -> nth_error (dpts st) j = Some b -> in_closed a b q p -> covered st' p.
Proof.
  intros i j a b p I Ea Eb HC. destruct (new_tri i j I) as (k & _ & K). destruct (edge_used _ _ (vis_bnd _ I)) as (IJ & _ & _ & I1 & I2).
  destruct (corners_ex st' k i (in_cons _ _ _ _ IN)) as (x & y & z & CR); [apply K; auto|]. exists k, x, y, z. split; [exact CR|].
  apply (proj1 (proj2 (corners_perm st' k i j ip a b q x y z CR (proj2 (K i) ltac:(auto)) (proj2 (K j) ltac:(auto)) (proj2 (K ip) ltac:(auto)) IJ ltac:(auto) ltac:(auto)
    ltac:(rewrite (in_pts _ _ _ _ IN); auto) ltac:(rewrite (in_pts _ _ _ _ IN); auto) ltac:(rewrite (in_pts _ _ _ _ IN); auto)))). exact HC.
Qed.
(** Some visible edge is seen from the new point just where p is. *)
Lemma seen : forall p, es <> [] -> (forall i a, In (i, ip) (dbnd st') -> nth_error (dpts st) i = Some a -> 0 <= orient a q p) ->
  (forall j b, In (ip, j) (dbnd st') -> nth_error (dpts st) j = Some b -> 0 <= orient q b p) ->
  exists i j a b, In (i, j) es /\ nth_error (dpts st) i = Some a /\ nth_error (dpts st) j = Some b /\ 0 <= orient a q p /\ 0 <= orient q b p.
Proof.
  intros p NE H1 H2. set (s := fun v => orient (at_ v) q p).
  assert (AT : forall i, used st i -> nth_error (dpts st) i = Some (at_ i)) by (intros i U; destruct (used_pt i U) as (r & E'); unfold at_; rewrite E'; reflexivity).
  destruct (Exists_dec (fun e => 0 <= s (fst e) /\ s (snd e) <= 0) es) as [E|E].
  - intros e. destruct (Rle_dec 0 (s (fst e))); [destruct (Rle_dec (s (snd e)) 0)|]; [left|right|right]; tauto.
  - apply Exists_exists in E. destruct E as ([i j] & I & S1 & S2). cbn [fst snd] in *. destruct (edge_used _ _ (vis_bnd _ I)) as (_ & U1 & U2 & _).
    exists i, j, (at_ i), (at_ j). repeat split; auto. unfold s in S2. replace (orient q (at_ j) p) with (- orient (at_ j) q p) by (unfold orient; ring). lra.
  - exfalso. assert (ST : forall i j, In (i, j) es -> 0 <= s i -> 0 < s j).
    { intros i j I S1. apply Rnot_le_lt. intros S2. apply E, Exists_exists. exists (i, j). auto. }
    set (E' := filter (fun e => if Rle_dec 0 (s (fst e)) then true else false) es).
    assert (IE : forall e, In e E' <-> In e es /\ 0 <= s (fst e)). { intros e. unfold E'. rewrite filter_In. destruct (Rle_dec 0 (s (fst e))); intuition congruence. }
    assert (SUB : incl (map snd E') (map fst E')).
    { intros j J. apply in_map_iff in J. destruct J as ([i j'] & Z & J). cbn in Z. subst j'. apply IE in J. destruct J as [J S1]. cbn [fst] in S1. pose proof (ST i j J S1) as S2.
      destruct (in_dec Nat.eq_dec j (map fst es)) as [K|K].
      - apply In_start in K. destruct K as (k & K). apply in_map_iff. exists (j, k). split; [reflexivity|]. apply IE. cbn [fst]. split; [exact K|lra].
      - exfalso. destruct (edge_used _ _ (vis_bnd _ J)) as (_ & _ & U2 & _). assert (B : In (ip, j) (dbnd st')) by (apply bnd_cases; right; right; split; [reflexivity|]; exists i; split; [exact J|]; intros y Y; apply K, In_start; eauto).
        pose proof (H2 j (at_ j) B (AT _ U2)) as S3. replace (orient q (at_ j) p) with (- s j) in S3 by (unfold s, orient; ring). lra. }
    destruct (open_chain NE) as (a & b & I & N). destruct (edge_used _ _ (vis_bnd _ I)) as (_ & U1 & _).
    assert (Ia : In a (map fst E')).
    { apply in_map_iff. exists (a, b). split; [reflexivity|]. apply IE. split; [exact I|]. apply (H1 a); auto. apply bnd_cases. right; left. split; [reflexivity|]. exists b. auto. }
    assert (ND : NoDup (map snd E')).
    { destruct starts_nd as [_ S2]. unfold E'. clear - S2. induction es as [|e l IH]; cbn; [constructor|]. cbn in S2. inversion S2 as [|? ? X1 X2]; subst. destruct (Rle_dec 0 (s (fst e))); [|auto]. cbn. constructor; auto.
      intros Z. apply X1. apply in_map_iff in Z. destruct Z as (e' & Z1 & Z2). apply filter_In in Z2. apply in_map_iff. exists e'. tauto. }
    apply (NoDup_length_incl ND (l' := map fst E')) in Ia; [|rewrite !map_length; lia|exact SUB]. apply in_map_iff in Ia. destruct Ia as ([x y] & Z & J). cbn in Z. subst y. apply IE in J. apply (N x). tauto.
Qed.
Lemma ins_hull1 : forall p, (forall i j a b, In (i, j) (dbnd st') -> nth_error (dpts st) i = Some a -> nth_error (dpts st) j = Some b -> 0 <= orient a b p) -> covered st' p.
Proof.
  intros p H.
  assert (AT : forall i, used st i -> nth_error (dpts st) i = Some (at_ i)) by (intros i U; destruct (used_pt i U) as (r & E'); unfold at_; rewrite E'; reflexivity).
  destruct (Exists_dec (fun e => orient (at_ (fst e)) (at_ (snd e)) p < 0) (dbnd st)) as [E|E].
  - intros e. destruct (Rlt_dec (orient (at_ (fst e)) (at_ (snd e)) p) 0); [left|right]; auto.
  - apply Exists_exists in E. destruct E as ([z w] & B & NEG). cbn [fst snd] in NEG. destruct (edge_used _ _ B) as (_ & Uz & Uw & _).
    assert (V : In (z, w) es).
    { destruct (vis_dec (z, w) B) as [|V]; [auto|]. exfalso. assert (0 <= orient (at_ z) (at_ w) p) by (apply (H z w); auto; apply bnd_cases; auto). lra. }
    destruct (seen p) as (i & j & a & b & I & Ea & Eb & S1 & S2).
    { intros Z. rewrite Z in V. destruct V. }
    { intros i a I Ea. apply (H i ip); auto. }
    { intros j b I Eb. apply (H ip j); auto. }
    destruct (edge_used _ _ (vis_bnd _ I)) as (_ & Ui & Uj & _).
    apply (cover_new i j a b p I Ea Eb). apply closed_swap. pose proof (vis_neg i j a b I Ea Eb) as NG. apply closed_pos; [rewrite or_swap; lra|].
    split; [|auto]. rewrite or_swap. apply Rnot_lt_le. intros PB.
    assert (0 <= orient (at_ z) (at_ w) p); [|lra]. apply (behind a b (at_ z) (at_ w) q p); auto; try lra; [apply (left0 z w i); auto|apply (left0 z w j); auto|apply (vis_neg z w); auto].
  - apply cover_old. apply (ol_hull st OL). intros i j a b I Ea Eb. apply Rnot_lt_le. intros NG. apply E, Exists_exists. exists (i, j). split; [exact I|]. cbn [fst snd]. unfold at_. rewrite Ea, Eb. exact NG.
Qed.
Lemma ins_fine : fine st'.
Proof. constructor; [apply (in_cons _ _ _ _ IN)|rewrite (in_pts _ _ _ _ IN); apply (fi_st _ FI)|apply ins_planar]. Qed.
Lemma ins_outline : outline st'.
Proof.
  constructor.
  - apply (in_ndb _ _ _ _ IN).
  - apply ins_edge.
  - intros i j v a b c. rewrite (in_pts _ _ _ _ IN). apply ins_left.
  - apply ins_next.
  - apply ins_prev.
  - intros p. rewrite (in_pts _ _ _ _ IN). split; [|apply ins_hull1].
    intros (k & x & y & z & CR & HC) i j a b I Ea Eb. destruct (corners_has _ _ _ _ _ CR) as (u & v & w & Hu & Hv & Hw & _ & Eu & Ev & Ew). rewrite (in_pts _ _ _ _ IN) in *.
    assert (L0 : forall v c, has st' k v -> nth_error (dpts st) v = Some c -> 0 <= orient a b c).
    { intros m c Hm Em. destruct (or_same a b) as (Z1 & Z2 & _). destruct (Nat.eq_dec m i) as [->|Mi]; [rewrite Ea in Em; injection Em as <-; lra|]. destruct (Nat.eq_dec m j) as [->|Mj]; [rewrite Eb in Em; injection Em as <-; lra|].
      left. apply (ins_left i j m); auto. exists k. exact Hm. }
    apply (side_closed x y z a b p (proj1 ins_planar _ _ _ _ CR) HC); eauto.
Qed.
End Ins.
