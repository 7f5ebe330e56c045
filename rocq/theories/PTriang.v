(** The triangulation of points in general position. *)
From Coq Require Import Reals ZArith Lra Lia Bool List Psatz Permutation Sorted.
From Verif Require Import Base Arith ArithR MPoint MLine MPoly MDelaunay Spec SpecDelaunay SpecPlanar PPoint PLine PTrig PDelaunay PDelAdd PDelGeo PPlane PFlip PFlipLoop PInsert.
Import ListNotations.
Local Open Scope R_scope.
#[local] Existing Instance RA.

(** * Flips keep the outline *)
Lemma kept_outline : forall st st', kept st st' -> outline st -> outline st'.
Proof.
  intros st st' K O. constructor; rewrite ?(kp_bnd _ _ K), ?(kp_pts _ _ K).
  - apply (ol_nd _ O).
  - intros i j I. destruct (ol_edge _ O i j I) as [IJ S]. split; [exact IJ|]. apply (kp_sole _ _ K); auto.
  - intros i j v a b c I U. apply (kp_used _ _ K) in U. apply (ol_left _ O); auto.
  - apply (ol_next _ O).
  - apply (ol_prev _ O).
  - intros p. rewrite (kp_cov _ _ K). apply (ol_hull _ O).
Qed.

Lemma get_lt : forall X (l : list X) n, (n < length l)%nat -> exists x, nth_error l n = Some x.
Proof. intros X l n H. destruct (nth_error l n) as [x|] eqn:E; [eauto|]. apply nth_error_None in E. lia. Qed.

(** * Adding one point *)
Lemma add_point : forall ord st ip, (forall es, incl es (ord es)) -> fine st -> outline st -> general (dpts st) -> (ip < length (dpts st))%nat -> ~ used st ip ->
  exists n st', (forall fuel, (n <= fuel)%nat -> addPoint fuel ord st ip = Ok (Some st')) /\ fine st' /\ outline st' /\ delaunay st' /\ dpts st' = dpts st /\
    (forall p, covered st p -> covered st' p) /\
    (forall q, nth_error (dpts st) ip = Some q -> (covered st q \/ ~ covered st q) /\ forall v, used st' v <-> used st v \/ (v = ip /\ ~ covered st q)).
Proof.
  intros ord st ip O FI OL GP LI NU. destruct (get_lt _ _ _ LI) as (q & EQ).
  destruct (insert_inserted st ip (fi_cons _ FI) LI OL NU) as (s1 & es & E & IN).
  pose proof (ins_fine st s1 ip es q FI OL GP NU EQ IN) as F1. pose proof (ins_outline st s1 ip es q FI OL GP NU EQ IN) as O1.
  destruct (flips_kept ord s1 O F1) as (n & st' & FL & K & D). exists n, st'. split; [intros fuel LF; unfold addPoint; rewrite E; cbn [bind]; auto|].
  split; [apply (kp_fine _ _ K)|]. split; [apply (kept_outline _ _ K O1)|]. split; [exact D|]. split; [rewrite (kp_pts _ _ K); apply (in_pts _ _ _ _ IN)|].
  split; [intros p CV; apply (kp_cov _ _ K), (cover_old st s1 ip es IN); exact CV|].
  intros q' EQ'. rewrite EQ in EQ'. injection EQ' as <-.
  assert (NE : es <> [] -> ~ covered st q).
  { intros N CV. destruct (exists_in _ es N) as ([i j] & I).
    pose proof (vis_bnd st s1 ip es IN _ I) as B. destruct (edge_used st ip OL NU i j B) as (_ & U1 & U2 & _).
    destruct (used_pt st FI i U1) as (a & Ea). destruct (used_pt st FI j U2) as (b & Eb).
    pose proof (vis_neg st s1 ip es q FI OL GP NU EQ IN i j a b I Ea Eb). pose proof (proj1 (ol_hull _ OL q) CV i j a b B Ea Eb). lra. }
  assert (CE : es = [] -> covered st q).
  { intros Z. apply (ol_hull _ OL). intros i j a b B Ea Eb. left. apply (invis_pos st s1 ip es q FI OL GP NU EQ IN i j); auto. rewrite Z. intros []. }
  assert (DE : es = [] \/ es <> []) by (clear; destruct es; [left; reflexivity|right; discriminate]).
  split; [destruct DE; [left|right]; auto|]. intros v. rewrite (kp_used _ _ K), (used_ins st s1 ip es OL NU IN). clear - NE CE DE. tauto.
Qed.

(** * The first triangle *)
Lemma single : forall (st : dst RA) x y z a b c, consistent st -> Forall stored (dpts st) -> dtris st = [(x, y, z)] -> dbnd st = [(x, y); (y, z); (z, x)] ->
  nth_error (dpts st) x = Some a -> nth_error (dpts st) y = Some b -> nth_error (dpts st) z = Some c -> 0 < orient a b c ->
  fine st /\ outline st /\ delaunay st /\ (forall v, used st v <-> v = x \/ v = y \/ v = z).
Proof.
  intros st x y z a b c C SP T B Ea Eb Ec PO.
  destruct (cs_tri st C 0 (x, y, z)) as [ND _]; [rewrite T; reflexivity|]. cbn [tri_list] in ND.
  assert (N : x <> y /\ y <> z /\ x <> z). { inversion ND as [|? ? N1 N2]; subst. inversion N2 as [|? ? N3 _]; subst. cbn in N1, N3. split; [|split]; intros ->; tauto. }
  destruct N as (XY & YZ & XZ).
  assert (H : forall k v, has st k v <-> k = 0%nat /\ (v = x \/ v = y \/ v = z)).
  { intros k v. unfold has. rewrite T. split.
    - intros (t & E & I). destruct k as [|[|k]]; cbn in E; try discriminate. injection E as <-. cbn in I. split; [reflexivity|]. clear - I. intuition.
    - intros [-> I]. exists (x, y, z). split; [reflexivity|]. cbn. clear - I. intuition. }
  assert (CR : forall k d e f, corners st k d e f -> k = 0%nat /\ d = a /\ e = b /\ f = c).
  { intros k d e f (u & v & w & E & Ed & Ee & Ef). rewrite T in E. destruct k as [|[|k]]; cbn in E; try discriminate. injection E as <- <- <-. split; [reflexivity|]. repeat split; congruence. }
  assert (FI : fine st).
  { constructor; auto. split.
    - intros k d e f K. apply CR in K. destruct K as (_ & -> & -> & ->). lra.
    - intros k l d e f d' e' f' p K L _ _. apply CR in K. apply CR in L. destruct K as [-> _], L as [-> _]. reflexivity. }
  assert (US : forall v, used st v <-> v = x \/ v = y \/ v = z). { intros v. split; [intros (k & K); apply H in K; apply K|]. intros I. exists 0%nat. apply H. auto. }
  split; [exact FI|]. split; [|split; [|exact US]].
  - assert (EB : forall i j, In (i, j) (dbnd st) <-> (i = x /\ j = y) \/ (i = y /\ j = z) \/ (i = z /\ j = x)).
    { intros i j. rewrite B. cbn [In]. split; [intros [E|[E|[E|[]]]]; injection E as <- <-; auto|intros [[-> ->]|[[-> ->]|[-> ->]]]; auto]. }
    constructor.
    + rewrite B. constructor; [cbn [In]; intros [I|[I|[]]]; congruence|]. constructor; [cbn [In]; intros [I|[]]; congruence|]. constructor; [intros []|constructor].
    + intros i j I. apply EB in I. split; [destruct I as [[-> ->]|[[-> ->]|[-> ->]]]; auto|]. exists 0%nat. intros k'. rewrite !H. split; [tauto|]. intros ->. destruct I as [[-> ->]|[[-> ->]|[-> ->]]]; auto 10.
    + intros i j v d e f I U VI VJ Ed Ee Ef. apply EB in I. apply US in U.
      destruct I as [[-> ->]|[[-> ->]|[-> ->]]].
      * assert (v = z) as -> by (clear - U VI VJ; tauto). replace d with a by congruence. replace e with b by congruence. replace f with c by congruence. exact PO.
      * assert (v = x) as -> by (clear - U VI VJ; tauto). replace d with b by congruence. replace e with c by congruence. replace f with a by congruence. replace (orient b c a) with (orient a b c) by (unfold orient; ring). exact PO.
      * assert (v = y) as -> by (clear - U VI VJ; tauto). replace d with c by congruence. replace e with a by congruence. replace f with b by congruence. replace (orient c a b) with (orient a b c) by (unfold orient; ring). exact PO.
    + intros i j I. apply EB in I. destruct I as [[-> ->]|[[-> ->]|[-> ->]]]; [exists z|exists x|exists y]; apply EB; auto.
    + intros i j I. apply EB in I. destruct I as [[-> ->]|[[-> ->]|[-> ->]]]; [exists z|exists x|exists y]; apply EB; auto.
    + intros p. split.
      * intros (k & d & e & f & K & IC) i j u v I Eu Ev. apply CR in K. destruct K as (_ & -> & -> & ->). apply (closed_pos a b c p PO) in IC.
        apply EB in I. destruct I as [[-> ->]|[[-> ->]|[-> ->]]].
        -- replace u with a by congruence. replace v with b by congruence. tauto.
        -- replace u with b by congruence. replace v with c by congruence. tauto.
        -- replace u with c by congruence. replace v with a by congruence. tauto.
      * intros L. exists 0%nat, a, b, c. split; [exists x, y, z; rewrite T; auto|]. apply (closed_pos a b c p PO).
        split; [apply (L x y)|split; [apply (L y z)|apply (L z x)]]; auto; apply EB; auto.
  - intros k l i j u w d e o1 o2 al1 al2 KL IJ Ki _ _ _ _ Li. apply H in Ki. apply H in Li. exfalso. apply KL. destruct Ki as [-> _], Li as [-> _]. reflexivity.
Qed.

Lemma first_fine : forall ps : list (pt RA), (3 <= length ps)%nat -> Forall stored ps -> general ps ->
  exists st, first_triangle ps = Ok (Some st) /\ dpts st = ps /\ fine st /\ outline st /\ delaunay st /\ (forall v, used st v <-> (v < 3)%nat).
Proof.
  intros ps L SP G.
  destruct (proj2 (first_triangle_spec RA ps) L) as (st & t & F & C & P & T & _). exists st. split; [exact F|]. split; [exact P|].
  destruct (get_lt _ ps 0 ltac:(lia)) as (a & Ea). destruct (get_lt _ ps 1 ltac:(lia)) as (b & Eb). destruct (get_lt _ ps 2 ltac:(lia)) as (c & Ec).
  assert (SS : forall k p, nth_error ps k = Some p -> stored p) by (intros k p E; apply nth_error_In in E; rewrite Forall_forall in SP; auto).
  pose proof (G 0 1 2 a b c ltac:(lia) ltac:(lia) ltac:(lia) Ea Eb Ec)%nat as GA.
  unfold first_triangle, makeCounterClockwise in F. destruct (Nat.leb_spec 3 (length ps)); [|lia].
  rewrite (getArea_orient ps 0 1 2 a b c) in F by eauto. cbn [bind] in F.
  assert (EE : @EPS RA = 1 / 10 ^ 8) by (unfold EPS, ndec; ra_simpl; lra).
  assert (Z : @nltb RA (orient a b c) (nopp EPS) = Rltb (orient a b c) (- (1 / 10 ^ 8))) by (rewrite <- EE; reflexivity). rewrite Z in F. clear Z. unfold Rltb in F. destruct (Rlt_dec (orient a b c) (- (1 / 10 ^ 8))) as [CMP|CMP].
  - cbn [bind] in F. injection F as <-. cbn [dpts dtris dbnd] in *.
    destruct (single _ 0 2 1 a c b C SP eq_refl eq_refl Ea Ec Eb)%nat as (F1 & F2 & F3 & F4).
    + replace (orient a c b) with (- orient a b c) by (unfold orient; ring). lra.
    + split; [exact F1|]. split; [exact F2|]. split; [exact F3|]. intros v. rewrite F4. lia.
  - cbn [bind] in F. injection F as <-. cbn [dpts dtris dbnd] in *.
    destruct (single _ 0 1 2 a b c C SP eq_refl eq_refl Ea Eb Ec)%nat as (F1 & F2 & F3 & F4).
    + unfold Rabs in GA. destruct (Rcase_abs (orient a b c)); lra.
    + split; [exact F1|]. split; [exact F2|]. split; [exact F3|]. intros v. rewrite F4. lia.
Qed.

(** * All the points *)
Lemma corner_covered : forall st v p, fine st -> used st v -> nth_error (dpts st) v = Some p -> covered st p.
Proof.
  intros st v p FI (k & H) E. destruct (corners_ex st k v (fi_cons _ FI) H) as (a & b & c & CR). exists k, a, b, c. split; [exact CR|].
  destruct CR as (x & y & z & T & Ea & Eb & Ec). apply (has_nth st _ _ _ T) in H. cbn in H. pose proof (or_same a b) as (A1 & A2 & _). pose proof (or_same b c) as (B1 & B2 & _). pose proof (or_same c a) as (C1 & C2 & _).
  assert (S : orient b c a = orient a b c /\ orient c a b = orient a b c) by (unfold orient; split; ring). destruct S as [S1 S2].
  unfold in_closed. destruct H as [<-|[<-|[<-|[]]]].
  - assert (p = a) as -> by congruence. lra.
  - assert (p = b) as -> by congruence. lra.
  - assert (p = c) as -> by congruence. lra.
Qed.
Lemma add_all_fine : forall todo ord st, (forall es, incl es (ord es)) -> fine st -> outline st -> delaunay st -> general (dpts st) ->
  NoDup todo -> (forall i, In i todo -> (i < length (dpts st))%nat /\ ~ used st i) ->
  exists n st', (forall fuel, (n <= fuel)%nat -> add_all fuel ord st todo = Ok (Some st')) /\ fine st' /\ outline st' /\ delaunay st' /\ dpts st' = dpts st /\
    (forall p, covered st p -> covered st' p) /\ (forall i p, In i todo -> nth_error (dpts st) i = Some p -> covered st' p) /\
    (forall v, used st v -> used st' v) /\
    ((forall s i r, fine s -> outline s -> dpts s = dpts st -> (exists l, todo = l ++ i :: r /\ forall v, used s v -> used st v \/ In v l) -> ~ used s i -> forall q, nth_error (dpts st) i = Some q -> ~ covered s q) ->
     forall i, In i todo -> used st' i).
Proof.
  induction todo as [|i todo IH]; intros ord st O FI OL D GP ND H.
  { exists 0%nat, st. split; [reflexivity|]. do 4 (split; [auto|]). split; [auto|]. split; [intros i p []|]. split; [auto|]. intros _ i []. }
  inversion ND as [|? ? N1 N2]; subst. destruct (H i (or_introl eq_refl)) as [LI NU]. destruct (get_lt _ _ _ LI) as (q & EQ).
  destruct (add_point ord st i O FI OL GP LI NU) as (n1 & s1 & F1 & FI1 & OL1 & D1 & P1 & C1 & U1). destruct (U1 q EQ) as [CD U1']. clear U1. rename U1' into U1.
  assert (US : forall v, used s1 v -> used st v \/ v = i) by (intros v V; apply U1 in V; tauto).
  destruct (IH ord s1 O FI1 OL1 D1 ltac:(rewrite P1; exact GP) N2) as (n2 & s2 & F2 & FI2 & OL2 & D2 & P2 & C2 & T2 & V2 & W2).
  { intros j J. rewrite P1. destruct (H j (or_intror J)) as [LJ NJ]. split; [exact LJ|]. intros U. apply US in U. destruct U as [U| ->]; auto. }
  exists (Nat.max n1 n2), s2. split; [intros fuel LF; cbn [add_all]; rewrite F1 by lia; cbn [bind]; apply F2; lia|].
  do 3 (split; [auto|]). split; [congruence|]. split; [auto|]. split.
  { intros j p [<-|J] E; [|apply (T2 j p J); rewrite P1; exact E]. rewrite EQ in E. injection E as <-. apply C2.
    destruct CD as [CV|NC]; [auto|]. apply (corner_covered s1 i q FI1); [apply U1; auto|rewrite P1; exact EQ]. }
  split; [intros v V; apply V2, U1; auto|].
  intros FAR j [<-|J].
  - apply V2, U1. right. split; [reflexivity|]. apply (FAR st i todo); auto. exists []. split; [reflexivity|auto].
  - apply W2; [|exact J]. intros s k r Fs Os Ps (l & L & Ul) NUs p Ep. apply (FAR s k r); auto; [congruence| |rewrite <- P1; exact Ep]. exists (i :: l). split; [cbn; congruence|]. intros v V. apply Ul in V. destruct V as [V|V]; [apply US in V; cbn; destruct V as [V| ->]; auto|cbn; auto].
Qed.

(** * The farthest point is outside *)
Definition away (c p : pt RA) : R := (px c - px p) * (px c - px p) + (py c - py p) * (py c - py p).
Lemma away_bary : forall a b c p o : pt RA, orient b c p * away o a + orient c a p * away o b + orient a b p * away o c =
  orient a b c * away o p + (orient b c p * away p a + orient c a p * away p b + orient a b p * away p c).
Proof. intros [ax ay] [bx by'] [cx cy] [x y] [ox oy]. unfold orient, away. cbn [px py]. ring. Qed.
Lemma far_out : forall a b c p o : pt RA, in_closed a b c p -> orient a b p <> 0 -> orient b c p <> 0 -> orient c a p <> 0 ->
  away o a <= away o p -> away o b <= away o p -> away o c <= away o p -> False.
Proof.
  assert (AP : forall p a : pt RA, 0 <= away p a) by (intros [x y] [u v]; unfold away; cbn [px py]; pose proof (Rle_0_sqr (x - u)); pose proof (Rle_0_sqr (y - v)); unfold Rsqr in *; lra).
  assert (G : forall a b c p o : pt RA, 0 < orient a b p -> 0 < orient b c p -> 0 < orient c a p -> away o a <= away o p -> away o b <= away o p -> away o c <= away o p -> False).
  { intros a b c p o O1 O2 O3 A B C. pose proof (away_bary a b c p o) as E. rewrite <- (or_sum a b c p) in E.
    pose proof (AP p a) as Pa. pose proof (AP p b) as Pb. pose proof (AP p c) as Pc.
    assert (Za : away p a = 0).
    { assert (Q1 : orient b c p * away o a <= orient b c p * away o p) by (apply Rmult_le_compat_l; lra). assert (Q2 : orient c a p * away o b <= orient c a p * away o p) by (apply Rmult_le_compat_l; lra). assert (Q3 : orient a b p * away o c <= orient a b p * away o p) by (apply Rmult_le_compat_l; lra).
      assert (R1 : 0 <= orient c a p * away p b) by (apply Rmult_le_pos; lra). assert (R2 : 0 <= orient a b p * away p c) by (apply Rmult_le_pos; lra).
      assert (R3 : orient b c p * away p a <= 0) by lra. apply Rle_antisym; [|exact Pa]. apply Rmult_le_reg_l with (orient b c p); lra. }
    unfold away in Za. destruct p as [x y], a as [u v]. cbn [px py] in Za. pose proof (Rle_0_sqr (x - u)) as S1. pose proof (Rle_0_sqr (y - v)) as S2. unfold Rsqr in *.
    assert (X : x - u = 0) by (apply Rsqr_0_uniq; unfold Rsqr; lra). assert (Y : y - v = 0) by (apply Rsqr_0_uniq; unfold Rsqr; lra). assert (x = u) as -> by lra. assert (y = v) as -> by lra. unfold orient in O1. cbn [px py] in O1. lra. }
  intros a b c p o IC N1 N2 N3 A B C. destruct IC as [(O1 & O2 & O3)|(O1 & O2 & O3)].
  - apply (G a b c p o); lra.
  - apply (G b a c p o); auto; rewrite or_swap; lra.
Qed.
Lemma far_uncovered : forall st i q o, fine st -> general (dpts st) -> nth_error (dpts st) i = Some q -> ~ used st i ->
  (forall v p, used st v -> nth_error (dpts st) v = Some p -> away o p <= away o q) -> ~ covered st q.
Proof.
  intros st i q o FI GP EQ NU FAR (k & a & b & c & CR & IC). destruct (corners_has _ _ _ _ _ CR) as (x & y & z & Hx & Hy & Hz & T & Ea & Eb & Ec).
  destruct (cs_tri st (fi_cons _ FI) k _ T) as [ND _]. cbn [tri_list] in ND.
  assert (N : x <> y /\ y <> z /\ x <> z). { inversion ND as [|? ? N1 N2]; subst. inversion N2 as [|? ? N3 _]; subst. cbn in N1, N3. split; [|split]; intros ->; tauto. }
  destruct N as (XY & YZ & XZ).
  assert (I : x <> i /\ y <> i /\ z <> i) by (split; [|split]; intros ->; apply NU; exists k; auto). destruct I as (XI & YI & ZI).
  assert (G : forall v w d e, v <> w -> v <> i -> w <> i -> nth_error (dpts st) v = Some d -> nth_error (dpts st) w = Some e -> orient d e q <> 0).
  { intros v w d e VW VI WI Ed Ee Z. pose proof (GP v w i d e q VW VI WI Ed Ee EQ) as H. rewrite Z, Rabs_R0 in H. lra. }
  apply (far_out a b c q o IC); [eapply (G x y); eauto|eapply (G y z); eauto|eapply (G z x); eauto| | |]; [apply (FAR x)|apply (FAR y)|apply (FAR z)]; auto; exists k; auto.
Qed.

(** * Sorting *)
Lemma insert_R : forall X (f : X -> R) x l, StronglySorted (fun a b => f a <= f b) l -> StronglySorted (fun a b => f a <= f b) (insert_sorted (fun a b => Rltb (f a) (f b)) x l).
Proof.
  intros X f x l H. induction H as [|y l H IH F]; simpl; [constructor; constructor|]. unfold Rltb at 1. destruct (Rlt_dec (f y) (f x)) as [L|L].
  - constructor; auto. rewrite Forall_forall in *. intros z I.
    assert (P : Permutation (insert_sorted (fun a b => Rltb (f a) (f b)) x l) (x :: l)).
    { clear. induction l as [|y l IH]; simpl; auto. destruct (Rltb _ _); auto. rewrite IH. apply perm_swap. }
    apply (Permutation_in _ P) in I. destruct I as [<-|I]; [lra|auto].
  - constructor; [constructor; auto|]. rewrite Forall_forall in *. intros z [<-|I]; [lra|]. specialize (F z I). lra.
Qed.
Lemma sort_R : forall X (f : X -> R) (l : list X), StronglySorted (fun a b => f a <= f b) (sort_by (fun a b => Rltb (f a) (f b)) l).
Proof. intros X f l. induction l as [|x l IH]; simpl; [constructor|]. apply insert_R; auto. Qed.
Lemma sorted_nth : forall X (R : X -> X -> Prop) l, StronglySorted R l -> forall i j a b, (i < j)%nat -> nth_error l i = Some a -> nth_error l j = Some b -> R a b.
Proof.
  intros X R l H. induction H as [|x l H IH F]; intros i j a b L Ea Eb; [destruct i; discriminate|]. destruct j as [|j]; [lia|]. cbn in Eb. destruct i as [|i]; cbn in Ea.
  - injection Ea as <-. rewrite Forall_forall in F. apply F. apply nth_error_In in Eb. exact Eb.
  - apply (IH i j); auto. lia.
Qed.
Lemma sort_same : forall cc (ps : list (pt RA)), sort_by (fun p q => (sqr (pt_distance cc p) <? sqr (pt_distance cc q))%num) ps = sort_by (fun p q => Rltb (away cc p) (away cc q)) ps.
Proof.
  assert (SQ : forall c p : pt RA, sqr (pt_distance c p) = away c p). { intros c p. unfold sqr. rewrite pt_distance_R. apply sqrt_sqrt. pose proof (Rle_0_sqr (px c - px p)); pose proof (Rle_0_sqr (py c - py p)); unfold Rsqr in *. apply Rplus_le_le_0_compat; assumption. }
  intros cc. induction ps as [|p ps IH]; [reflexivity|]. cbn [sort_by]. rewrite IH.
  generalize (sort_by (fun p0 q : pt RA => Rltb (away cc p0) (away cc q)) ps). intros l. induction l as [|x l IHl]; [reflexivity|]. cbn [insert_sorted]. rewrite !SQ. rewrite IHl. reflexivity.
Qed.
Lemma sorted_away : forall ps : list (pt RA), (0 < length ps)%nat -> exists c, d_sorted ps = Ok (sort_by (fun p q => Rltb (away c p) (away c q)) ps).
Proof.
  intros ps L. unfold d_sorted, d_centroid, pdiv.
  assert (NZ : @neqb RA (nofZ (Z.of_nat (length ps))) n0 = false).
  { ra. unfold Reqb. destruct (Req_EM_T (IZR (Z.of_nat (length ps))) 0) as [E|E]; [|reflexivity]. exfalso. apply eq_IZR in E. lia. }
  rewrite NZ. cbn [bind]. eexists. f_equal. apply sort_same.
Qed.
Lemma seq_order : forall l i r a m, seq a m = l ++ i :: r -> forall v, In v l -> (v < i)%nat.
Proof.
  induction l as [|x l IH]; intros i r a m E v I; [destruct I|]. destruct m as [|m]; [discriminate|]. cbn [seq app] in E. injection E as <- E. destruct I as [<-|I]; [|eapply IH; eauto].
  assert (K : In i (seq (S a) m)) by (rewrite E, in_app_iff; cbn; auto). apply in_seq in K. lia.
Qed.

Lemma general_perm : forall ps qs, Permutation ps qs -> general ps -> general qs.
Proof.
  intros ps qs P G. apply Permutation_nth_error in P. destruct P as (LN & f & INJ & F). intros i j k a b c IJ IK JK Ea Eb Ec. rewrite F in Ea, Eb, Ec.
  apply (G (f i) (f j) (f k)); auto; intros E; apply INJ in E; auto.
Qed.
Lemma not_dropped : forall n (ps : list (pt RA)), Forall stored ps -> general ps -> drop_collinear n ps = Ok ps.
Proof.
  intros [|n] ps SP G; [reflexivity|]. cbn [drop_collinear]. destruct (Nat.ltb_spec 2 (length ps)) as [L|L]; [|reflexivity].
  destruct (get_lt _ ps 0 ltac:(lia)) as (a & Ea). destruct (get_lt _ ps 1 ltac:(lia)) as (b & Eb). destruct (get_lt _ ps 2 ltac:(lia)) as (c & Ec).
  assert (SS : forall k p, nth_error ps k = Some p -> stored p) by (intros k p E; apply nth_error_In in E; rewrite Forall_forall in SP; auto).
  pose proof (G 0 1 2 a b c ltac:(lia) ltac:(lia) ltac:(lia) Ea Eb Ec)%nat as GA. rewrite (getArea_orient ps 0 1 2 a b c) by eauto. cbn [bind].
  assert (EE : @EPS RA = 1 / 10 ^ 8) by (unfold EPS, ndec; ra_simpl; lra).
  assert (Z : @nltb RA (nabs (orient a b c)) EPS = Rltb (Rabs (orient a b c)) (1 / 10 ^ 8)) by (rewrite <- EE; reflexivity). rewrite Z. unfold Rltb. destruct (Rlt_dec _ _); [lra|reflexivity].
Qed.

(*@ C86_triangulate *)
(** C86: triangulating at least three points of which no three are (nearly) on one line ends, whatever the
    order in which Python visits its sets, with a consistent, planar Delaunay triangulation of the convex
    hull of the points: every triangle has corners among the points, no two triangles have a common inner
    point, the points they cover are exactly those of the convex hull, and the boundary edges are the
    edges of a convex polygon around it, each with all other vertices on its left.  If the set of the
    remaining indices is emptied in ascending order, every point is a vertex of some triangle. *)
Lemma triangulate_spec : forall (ord : list edge -> list edge) (pop : list nat -> list nat) (points : list (pt RA)),
  (forall es, incl es (ord es)) -> (forall l, Permutation (pop l) l) ->
  Forall stored points -> (3 <= length points)%nat -> general points ->
  exists n st, (forall fuel, (n <= fuel)%nat -> triangulate fuel ord pop points = Ok (Some st)) /\
    Permutation (dpts st) points /\ consistent st /\ planar st /\ delaunay st /\ outline st /\
    (forall p, covered st p <-> in_hull points p) /\
    ((forall l, pop l = l) -> forall v, (v < length points)%nat -> used st v).
Proof.
  intros ord pop points O PP SP LP GP. destruct (sorted_away points ltac:(lia)) as (c & S). set (ps := sort_by (fun p q => Rltb (away c p) (away c q)) points) in *.
  assert (PM : Permutation ps points) by apply sort_by_perm. pose proof (Permutation_length PM) as LN.
  assert (SP' : Forall stored ps) by (rewrite Forall_forall in *; intros x I; apply SP, (Permutation_in _ PM I)). pose proof (general_perm _ _ (Permutation_sym PM) GP) as GP'.
  destruct (first_fine ps ltac:(lia) SP' GP') as (s0 & F0 & P0 & FI0 & OL0 & D0 & U0).
  set (todo := pop (seq 3 (length ps - 3))).
  assert (TD : forall i, In i todo <-> (3 <= i < length ps)%nat). { intros i. unfold todo. rewrite (Permutation_in' eq_refl (PP _)), in_seq. lia. }
  destruct (add_all_fine todo ord s0 O FI0 OL0 D0 ltac:(rewrite P0; exact GP')) as (n & st & F & FI & OL & D & P & CV0 & CV & UV & FAR).
  { apply (Permutation_NoDup (Permutation_sym (PP _))). apply seq_NoDup. }
  { intros i I. apply TD in I. rewrite P0, U0. lia. }
  exists n, st. split; [intros fuel LF; unfold triangulate; rewrite S; cbn [bind]; rewrite not_dropped by auto; cbn [bind]; rewrite F0; cbn [bind]; apply F; exact LF|].
  rewrite P, P0 in *. split; [exact PM|]. split; [apply (fi_cons _ FI)|]. split; [apply (fi_pl _ FI)|]. split; [exact D|]. split; [exact OL|]. split.
  - assert (ALL : forall r, In r points -> covered st r).
    { intros r I. apply (Permutation_in _ (Permutation_sym PM)) in I. apply In_nth_error in I. destruct I as (i & E). assert (L : (i < length ps)%nat) by (apply nth_error_Some; congruence).
      destruct (Nat.lt_ge_cases i 3) as [I|I]; [|apply (CV i); auto; apply TD; lia]. apply CV0. apply (corner_covered s0 i); auto; [apply U0; exact I|rewrite P0; exact E]. }
    intros p. split.
    + intros (k & x & y & z & CR & IC) u v w H. destruct (corners_has _ _ _ _ _ CR) as (i & j & m & _ & _ & _ & _ & Ex & Ey & Ez). rewrite P in Ex, Ey, Ez.
      apply nth_error_In in Ex, Ey, Ez. apply (Permutation_in _ PM), H in Ex. apply (Permutation_in _ PM), H in Ey. apply (Permutation_in _ PM), H in Ez.
      pose proof (proj1 (fi_pl _ FI) _ _ _ _ CR) as NZ. pose proof (or_sum x y z p) as OS.
      assert (B : (u * px x + v * py x) * orient y z p + (u * px y + v * py y) * orient z x p + (u * px z + v * py z) * orient x y p = (u * px p + v * py p) * orient x y z) by (unfold orient; ring).
      destruct IC as [(O1 & O2 & O3)|(O1 & O2 & O3)].
      * apply Rmult_le_reg_r with (orient x y z); [lra|]. rewrite <- B. rewrite <- OS. assert (Q1 : (u * px x + v * py x) * orient y z p <= w * orient y z p) by (apply Rmult_le_compat_r; lra). assert (Q2 : (u * px y + v * py y) * orient z x p <= w * orient z x p) by (apply Rmult_le_compat_r; lra). assert (Q3 : (u * px z + v * py z) * orient x y p <= w * orient x y p) by (apply Rmult_le_compat_r; lra). lra.
      * apply Rmult_le_reg_r with (- orient x y z); [lra|]. assert (Q1 : (u * px x + v * py x) * (- orient y z p) <= w * (- orient y z p)) by (apply Rmult_le_compat_r; lra). assert (Q2 : (u * px y + v * py y) * (- orient z x p) <= w * (- orient z x p)) by (apply Rmult_le_compat_r; lra). assert (Q3 : (u * px z + v * py z) * (- orient x y p) <= w * (- orient x y p)) by (apply Rmult_le_compat_r; lra).
        replace ((u * px p + v * py p) * - orient x y z) with (- ((u * px p + v * py p) * orient x y z)) by ring. rewrite <- B, <- OS. lra.
    + intros H. apply (ol_hull _ OL). intros i j a b I Ea Eb. pose (u := py b - py a). pose (v := - (px b - px a)).
      assert (E : forall r, orient a b r = - (u * px r + v * py r) + (u * px a + v * py a)) by (intros r; unfold orient, u, v; ring).
      specialize (H u v (u * px a + v * py a)). rewrite E. enough (u * px p + v * py p <= u * px a + v * py a) by lra. apply H. intros r R.
      pose proof (proj1 (ol_hull _ OL r) (ALL r R) i j a b I Ea Eb) as Q. rewrite E in Q. lra.
  - intros ID v L. destruct (Nat.lt_ge_cases v 3) as [I|I]; [apply UV, U0; exact I|]. apply FAR; [|apply TD; lia].
    intros s i r Fs Os Ps (l & L1 & Ul) NU q EQ. rewrite <- Ps in EQ. apply (far_uncovered s i q c); auto; [rewrite Ps; exact GP'|].
    intros w p Uw Ew. assert (WI : (w < i)%nat).
    { apply Ul in Uw. unfold todo in L1. rewrite ID in L1. destruct Uw as [Uw|Uw]; [apply U0 in Uw|apply (seq_order _ _ _ _ _ L1); exact Uw].
      assert (In i todo) as J by (unfold todo; rewrite ID, L1, in_app_iff; cbn; auto). apply TD in J. lia. }
    rewrite Ps in EQ, Ew. apply (sorted_nth _ _ _ (sort_R _ (away c) points) w i p q WI Ew EQ).
Qed.

(*@ C86_add *)
(** C86: adding a point to a consistent, planar triangulation of a convex polygon ends, whatever the order in
    which Python visits its sets, with a consistent, planar Delaunay triangulation of a convex polygon, which
    covers what was covered before and the new point.  The new point becomes a vertex if and only if it was
    not covered before; no other vertex is gained or lost. *)
Lemma add_spec : forall (ord : list edge -> list edge) (st : dst RA) ip q, (forall es, incl es (ord es)) ->
  consistent st -> Forall stored (dpts st) -> planar st -> outline st -> general (dpts st) -> ~ used st ip -> nth_error (dpts st) ip = Some q ->
  exists n st', (forall fuel, (n <= fuel)%nat -> addPoint fuel ord st ip = Ok (Some st')) /\
    consistent st' /\ planar st' /\ outline st' /\ delaunay st' /\ dpts st' = dpts st /\
    (forall p, covered st p \/ p = q -> covered st' p) /\
    (forall v, used st' v <-> used st v \/ (v = ip /\ ~ covered st q)).
Proof.
  intros ord st ip q O C SP P OL GP NU EQ. assert (LI : (ip < length (dpts st))%nat) by (apply nth_error_Some; congruence).
  destruct (add_point ord st ip O ltac:(constructor; auto) OL GP LI NU) as (n & st' & F & FI & OL' & D & P' & CV & U). destruct (U q EQ) as [CD U'].
  exists n, st'. split; [exact F|]. split; [apply (fi_cons _ FI)|]. split; [apply (fi_pl _ FI)|]. do 3 (split; [auto|]). split; [|exact U'].
  intros p [K| ->]; [auto|]. destruct CD as [K|K]; [auto|]. apply (corner_covered st' ip q FI); [apply U'; auto|rewrite P'; exact EQ].
Qed.

(*@ C86_flat *)
(** C86: the general position matters.  Adding a point on the line of a boundary edge makes a triangle without
    area of the two. *)
Lemma insert_flat : forall (st : dst RA) ip i j q a b, consistent st -> Forall stored (dpts st) ->
  (forall a b, In (a, b) (dbnd st) -> a <> b /\ a <> ip /\ b <> ip /\ exists k, has st k a /\ has st k b) ->
  In (i, j) (dbnd st) -> nth_error (dpts st) ip = Some q -> nth_error (dpts st) i = Some a -> nth_error (dpts st) j = Some b -> orient a b q = 0 ->
  exists st', addPoint_insert st ip = Ok st' /\ ~ planar st'.
Proof.
  intros st ip i j q a b C SP HB I EQ Ea Eb Z. assert (LI : (ip < length (dpts st))%nat) by (apply nth_error_Some; congruence).
  destruct (insert_spec RA st ip C LI HB) as (st' & es & ts & E & C' & D1 & D3 & HE & F2 & _). exists st'. split; [exact E|]. intros PL.
  assert (SS : forall k p, nth_error (dpts st) k = Some p -> stored p) by (intros k p H; apply nth_error_In in H; rewrite Forall_forall in SP; auto).
  assert (V : In (i, j) es).
  { apply HE. split; [exact I|]. destruct (visible_spec (dpts st) i j ip q a b EQ Ea Eb (SS _ _ EQ) (SS _ _ Ea) (SS _ _ Eb)) as [_ V]. rewrite V. destruct (Rlt_dec _ _) as [|N]; [reflexivity|]. exfalso. apply N. replace (orient q a b) with (orient a b q) by (unfold orient; ring). lra. }
  apply In_nth_error in V. destruct V as (n & N).
  assert (T : exists t, nth_error ts n = Some t /\ forall v, In v (tri_list t) <-> v = i \/ v = j \/ v = ip).
  { clear - F2 N. revert n N. induction F2 as [|e t l l' H F IH]; intros [|n] N; cbn in N; try discriminate; [injection N as ->; exists t; auto|]. apply (IH n N). }
  destruct T as (t & T & V). assert (K : forall v, v = i \/ v = j \/ v = ip -> has st' (length (dtris st) + n) v).
  { intros v X. exists t. split; [|apply V; exact X]. rewrite D3, nth_error_app2 by lia. replace (length (dtris st) + n - length (dtris st))%nat with n by lia. exact T. }
  destruct (HB i j I) as (IJ & I1 & I2 & _).
  apply (tri_not_flat st' (length (dtris st) + n) i j ip a b q C' PL); auto; rewrite D1; auto.
Qed.

(*@ex C86_example *)
(** Four points in general position. *)
Lemma triangulate_example : Forall stored ex_pts /\ (3 <= length ex_pts)%nat /\ general ex_pts.
Proof.
  split; [apply flip_example|]. split; [cbn; lia|].
  intros i j k a b c IJ IK JK Ea Eb Ec.
  destruct i as [|[|[|[|i]]]]; cbn in Ea; try (destruct i; discriminate); injection Ea as <-;
  destruct j as [|[|[|[|j]]]]; cbn in Eb; try (destruct j; discriminate); injection Eb as <-; try congruence;
  destruct k as [|[|[|[|k]]]]; cbn in Ec; try (destruct k; discriminate); injection Ec as <-; try congruence;
  unfold orient; cbn [px py]; match goal with |- _ < Rabs ?x => unfold Rabs; destruct (Rcase_abs x); lra end.
Qed.

(*@ex C86_add_example *)
(** The triangle of the first three of them meets the hypotheses about adding the fourth. *)
Lemma add_example : exists st, first_triangle ex_pts = Ok (Some st) /\ consistent st /\ Forall stored (dpts st) /\ planar st /\ outline st /\
  general (dpts st) /\ ~ used st 3 /\ nth_error (dpts st) 3 = Some (@mkpt RA 2 (-1)).
Proof.
  destruct triangulate_example as (SP & L & G). destruct (first_fine ex_pts L SP G) as (st & F & P & [C S PL] & OL & _ & U). exists st. rewrite P. rewrite U. repeat (split; [auto; try lia|]). reflexivity.
Qed.

(*@ex C86_flat_example *)
(** The point (8,0) is on the line of the edge (0,0)-(4,0) of the first triangle. *)
Lemma flat_example : let ps := [@mkpt RA 0 0; @mkpt RA 4 0; @mkpt RA 1 3; @mkpt RA 8 0] in
  exists st, first_triangle ps = Ok (Some st) /\ consistent st /\ Forall stored (dpts st) /\
  (forall a b, In (a, b) (dbnd st) -> a <> b /\ a <> 3%nat /\ b <> 3%nat /\ exists k, has st k a /\ has st k b) /\
  In (0, 1)%nat (dbnd st) /\ orient (@mkpt RA 0 0) (@mkpt RA 4 0) (@mkpt RA 8 0) = 0.
Proof.
  intros ps. assert (SP : Forall stored ps).
  { assert (Z : forall n : Z, exists k, IZR n = (IZR k / 10 ^ 8)%R) by (intros n; exists (n * 100000000)%Z; rewrite mult_IZR; field). repeat constructor; cbn [px py]; apply Z. }
  destruct (proj2 (first_triangle_spec RA ps) ltac:(cbn; lia)) as (st & t & F & C & P & T & V & B & _). exists st. split; [exact F|]. split; [exact C|]. split; [rewrite P; exact SP|]. split; [|split].
  - intros a b I. destruct (B a b I) as (AB & A3 & B3 & _). split; [exact AB|]. split; [lia|]. split; [lia|]. exists 0%nat. split; (exists t; rewrite T; split; [reflexivity|apply V; auto]).
  - revert F. unfold first_triangle, makeCounterClockwise. cbn [length ps Nat.leb]. rewrite (getArea_orient ps 0 1 2 (@mkpt RA 0 0) (@mkpt RA 4 0) (@mkpt RA 1 3)) by (try reflexivity; rewrite Forall_forall in SP; apply SP; cbn; auto). cbn [bind].
    assert (EE : @EPS RA = 1 / 10 ^ 8) by (unfold EPS, ndec; ra_simpl; lra).
    assert (Z : @nltb RA (orient (@mkpt RA 0 0) (@mkpt RA 4 0) (@mkpt RA 1 3)) (nopp EPS) = false).
    { change (Rltb (orient (@mkpt RA 0 0) (@mkpt RA 4 0) (@mkpt RA 1 3)) (Ropp (@EPS RA)) = false). rewrite EE. unfold Rltb, orient. cbn [px py]. destruct (Rlt_dec _ _); [lra|reflexivity]. }
    rewrite Z. cbn [bind]. intros F. injection F as <-. cbn. auto.
  - unfold orient. cbn [px py]. lra.
Qed.
