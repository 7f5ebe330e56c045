(** What raum_intex reports for the other parts of a vessel that a head divides. *)
From Coq Require Import String Reals ZArith Lra Lia Bool List Psatz Permutation Arith.
From Verif Require Import Base Arith ArithR ArithF MPoint MLine MPoly MHeap MVessel MContain MIntex MRaum
  Spec SpecGroup SpecLoops SpecRing SpecHeap SpecIntex SpecStack SpecSides SpecPartition SpecHeadParts PPoint PLine PConvex PStack.
From Verif Require PIntex PHeap PVessel PRaum PSides PPlate PStories PPartition SpecStories SpecInside.
Import SpecInside(right_of_row, even_odd, polygon_of).
Import ListNotations.
Local Open Scope list_scope.
Local Open Scope R_scope.
#[local] Existing Instance RA.

(** ** A part that belongs to one room only *)
Lemma fold_alone : forall (q : pt RA -> bool -> Prop) inside ro turn c g k,
  (forall n p, exists b, inside n ro p = Ok b /\ forall d, q p d -> b = d) -> PSides.fits q c g ->
  once_in (seen_as turn k g) ro -> forall n t st, foldM (probe inside ro) (walls_in ro) (n, t) = Ok st -> lookup String.eqb k t = Ok (mkintex [] [] []) ->
  lookup String.eqb k (snd st) = Ok (told_alone c (ir_name ro)).
Proof.
  intros q inside ro turn c g k ANS F (pre & post & EW & NM) n t st E L. rewrite EW, PPartition.fold_app in E.
  destruct (foldM (probe inside ro) pre (n, t)) as [[n1 t1]|] eqn:E1; [|discriminate E]. cbn [bind foldM] in E.
  apply (PPartition.fold_other _ _ k _ _ _ _ (mkintex [] [] [])) in E1; [|intros y Y; apply (NM y), in_app_iff; auto|auto]. cbn [snd] in E1.
  destruct (probe inside ro (n1, t1) (seen_as turn k g)) as [[n2 t2]|] eqn:EP; [|discriminate E]. cbn [bind] in E.
  apply (PPartition.fold_other _ _ k _ _ _ _ _ E); [intros y Y; apply (NM y), in_app_iff; auto|].
  destruct (PSides.categories q (fun n _ p => inside n ro p) turn) with (c := c) (k := k) (r := g) (n := n1) (room := ro) as (m1 & m2 & m3 & C1 & C2 & C3); auto.
  rewrite PStories.category_here in C1, C2, C3. unfold probe in EP. rewrite C1 in EP. cbn [bind] in EP. rewrite C2 in EP. cbn [bind] in EP. rewrite C3 in EP. cbn [bind] in EP.
  match type of EP with bind ?z _ = _ => destruct z; [|discriminate EP] end. cbn [bind] in EP. injection EP as _ <-. cbn [seen_as p_name].
  match goal with |- lookup _ _ (map (fun '(_, _) => if _ then (_, mkintex (sadd ?i _ _) (sadd ?e _ _) (sadd ?d _ _)) else _) _) = _ =>
    rewrite (PPartition.lookup_update k k (fun x => mkintex (sadd i (ir_name ro) (innenraum x)) (sadd e (ir_name ro) (aussenraum x)) (sadd d (ir_name ro) (indifferent x))) t1 _ E1) end.
  rewrite String.eqb_refl. destruct c as [|[|]]; reflexivity.
Qed.
Lemma alone : forall (q : pt RA -> bool -> Prop) (prepare : iroom RA -> res unit) (inside : nat -> iroom RA -> pt RA -> res bool) c g k names turn r front back,
  PSides.fits q c g -> (forall n p, exists b, inside n r p = Ok b /\ forall d, q p d -> b = d) -> once_in (seen_as turn k g) r ->
  (forall r' y, In r' (front ++ back) -> In y (walls_in r') -> p_name y <> k) ->
  NoDup names -> (forall r' y, In r' (front ++ r :: back) -> In y (walls_in r') -> In (p_name y) names) ->
  (forall r', prepare r' = Ok tt) -> (forall n r' p, exists b, inside n r' p = Ok b) ->
  exists t, raum_intex prepare inside names (front ++ r :: back) = Ok t /\ lookup String.eqb k t = Ok (told_alone c (ir_name r)).
Proof.
  intros q prepare inside c g k names turn r front back F ANS O OT ND NM PR T.
  set (t0 := map (fun j => (j, mkintex [] [] [])) names : table).
  set (G := (fun '(n, t) r => prepare r ;;; foldM (probe inside r) (ir_innen r ++ ir_aussen r) (n, t)) : nat * table -> iroom RA -> res (nat * table)).
  assert (UF : raum_intex prepare inside names (front ++ r :: back) = bind (foldM G (front ++ r :: back) (0%nat, t0)) (fun '(_, t) => Ok t)) by (unfold raum_intex; rewrite PSides.dedup_all by auto; reflexivity).
  rewrite UF. clear UF. assert (K0 : map fst t0 = names) by (unfold t0; rewrite map_map; cbn [fst]; apply map_id).
  assert (IR : In r (front ++ r :: back)) by (apply in_app_iff; right; left; auto).
  assert (KN : In k names) by (destruct O as (pre & post & E & _); apply (NM r (seen_as turn k g)); auto; rewrite E; apply in_app_iff; right; left; auto).
  assert (L0 : lookup String.eqb k t0 = Ok (mkintex [] [] [])).
  { unfold t0. clear - KN. induction names as [|j l IH]; [destruct KN|]. cbn [map lookup]. destruct (String.eqb_spec j k); auto. destruct KN; [congruence|auto]. }
  assert (SK : forall rs n (t : table) x, incl rs (front ++ back) -> map fst t = names -> lookup String.eqb k t = Ok x ->
    exists n' (t' : table), foldM G rs (n, t) = Ok (n', t') /\ map fst t' = names /\ lookup String.eqb k t' = Ok x).
  { intros rs n t x I K L. apply (PPartition.skip_rooms prepare inside names PR T k rs n t x K); auto. intros r' y R Y. apply I in R. split; [|eapply OT; eauto].
    apply (NM r' y); auto. rewrite in_app_iff in *. cbn [In]. tauto. }
  destruct (SK front 0%nat t0 _ ltac:(intros x X; apply in_app_iff; auto) K0 L0) as (n1 & t1 & E1 & K1 & L1). rewrite PPartition.fold_app, E1. cbn [bind foldM].
  destruct (PPartition.fold_total inside r (walls_in r) n1 t1 T) as ([n2 t2] & E2 & K2); [intros y Y; rewrite K1; eapply NM; eauto|].
  assert (L2 := fold_alone q inside r turn c g k ANS F O _ _ _ E2 L1). cbn [snd] in L2, K2.
  replace (G (n1, t1) r) with (Ok (n2, t2)) by (unfold G; rewrite PR; symmetry; exact E2). cbn [bind].
  destruct (SK back n2 t2 _ ltac:(intros x X; apply in_app_iff; auto) ltac:(congruence) L2) as (n3 & t3 & E3 & K3 & L3). rewrite E3. cbn [bind]. exists t3. auto.
Qed.

(** ** Points beyond the head *)
Lemma bulge_same : forall x0 (up e : bool) u (rest gf : list (seg RA)) p b, decimal8 x0 -> decimal8 (fst u) -> decimal8 (snd u / 2) -> 0 < snd u ->
  Permutation gf (closed_by x0 Flat e u ++ rest) -> PSides.says gf p b -> py p <> fst u -> over_roof (fst u) x0 (snd u) (sg up) (Rmax (1 / 10) (snd u / 1000)) p ->
  PSides.says (closed_by x0 Dome up u ++ rest) p b.
Proof.
  intros x0 up e u rest gf p b D0 D1 D2 D PF [O N] NE H.
  assert (OR : off_walls rest p) by (intros s I; apply O; apply (Permutation_in _ (Permutation_sym PF)); apply in_app_iff; auto).
  assert (NR : Nat.odd (PSides.hits p rest) = b).
  { rewrite (PSides.hits_perm p _ _ PF), PSides.hits_app, PSides.flat_far in N by auto. exact N. }
  split; [apply PSides.off_app; split; auto; apply PSides.off_dome; auto|]. rewrite PSides.hits_app, Nat.odd_add, NR, PSides.dome_out by auto. destruct b; reflexivity.
Qed.
Lemma beyond_over : forall u x0 (up : bool) (p : pt RA), 0 < snd u -> let hg := Rmax (1 / 10) (snd u / 1000) in
  hg + 1 / 1000 < sg up * (py p - fst u) -> over_roof (fst u) x0 (snd u) (sg up) hg p.
Proof.
  intros u x0 up p D hg H. assert (G : 1 / 10 <= hg) by apply Rmax_l. clearbody hg. unfold over_roof.
  assert (T0 : 0 <= Rabs (px p - x0) / (snd u / 2)) by (apply Rmult_le_pos; [apply Rabs_pos|left; apply Rinv_0_lt_compat; lra]).
  assert (0 <= hg * (Rabs (px p - x0) / (snd u / 2))) by (apply Rmult_le_pos; lra). lra.
Qed.
Lemma sided_mono : forall (q q' : pt RA -> bool -> Prop) r, (forall p s b, In (p, s) (ip_int r ++ ip_ext r) -> q p b -> q' p b) -> PSides.sided q r -> PSides.sided q' r.
Proof.
  intros q q' r H [S1 S2 S3 S4 S5 S6]. constructor; auto; intros p s I; apply (H p s); eauto; apply in_app_iff; auto.
Qed.
(** The points of a Mantel are between its ends. *)
Lemma shell_heights : forall x0 inside u v r, decimal8 x0 -> decimal8 (fst u) -> decimal8 (fst v) -> decimal8 (snd u / 2) -> decimal8 (snd v / 2) -> 0 < snd u -> 0 < snd v -> fst u < fst v ->
  (let h := fst v - fst u in let steep := 1 + Rabs (snd v - snd u) / (2 * h) in steep <= 10^6 * h /\ steep <= 100 * snd u /\ steep <= 20000) ->
  (forall k, right_answers (inside (Shell u v) k) (outline_of x0 u v)) -> graph_of x0 inside (Shell u v) = Ok r ->
  forall p s, In (p, s) (ip_int r ++ ip_ext r) -> fst u < py p < fst v.
Proof.
  intros x0 inside u v r D0 U1 V1 U2 V2 U3 V3 L (S1 & S2 & S3) RAns EG.
  assert (DH : decimal8 (fst v - fst u)) by (replace (fst v - fst u) with (fst v + - fst u) by ring; apply dec_add; auto; apply dec_opp; auto).
  destruct (PIntex.mantel_graph (inside (Shell u v)) (fst u) x0 (snd u) (snd v) (fst v - fst u)) as (s & t & r' & EW & ER & Q1 & Q2 & Q3 & Q4 & Q5 & Q6); auto; try lra.
  assert (r' = r) by (assert (X : Ok r' = Ok r) by (rewrite <- ER; exact EG); injection X; auto). subst r'.
  rewrite PIntex.mantel_trap in Q5, Q6; auto. rewrite Forall_forall in Q5, Q6. intros p w I. apply in_app_iff in I as [I|I]; apply (in_map fst) in I; cbn [fst] in I.
  - apply Q5, PSides.trap_in in I; lra.
  - apply Q6, PSides.trap_out in I; lra.
Qed.
(** One of the points of a flat end is on the far side of it. *)
Lemma flat_beyond : forall x0 inside (up : bool) (u : level), decimal8 x0 -> decimal8 (fst u) -> decimal8 (snd u / 2) -> 1 / 10^5 <= snd u ->
  exists r, graph_of x0 inside (End Flat up u) = Ok r /\ ip_int r = [] /\ ip_ext r = [] /\ exists p s, In s (ip_segs r) /\ In (p, s) (ip_ind r) /\ 0 < sg up * (py p - fst u).
Proof.
  intros x0 inside up u D0 D1 D2 D3.
  destruct (PIntex.flat_probes (fst u) x0 (snd u) D1 D0 D2 D3) as (_ & s & p & q & E & EI & PX & QX & PY & QY & EP & EQ).
  assert (W : walls_of x0 (End Flat up u) = [s]).
  { cbn [walls_of closed_by]. rewrite E. unfold flachboden_segments in E. injection E as <-. reflexivity. }
  eexists. split.
  - unfold graph_of. apply (PSides.renew_const _ [(s, mkprobes [] [] [p; q])] _ [mkprobes [] [] [p; q]]).
    + intros k. unfold probes_of. rewrite EI. reflexivity.
    + rewrite W. constructor; [|constructor]. cbn [row_of]. rewrite PSides.same_refl. reflexivity.
  - rewrite W. cbn [ip_segs ip_int ip_ext ip_ind combine flat_map pr_internal pr_external pr_indifferent map app]. split; auto. split; auto.
    assert (RND : forall y : R, Rabs (Rround8 y - y) <= 5 / 10^9) by (intros y; eapply Rle_trans; [apply Rround8_err|lra]).
    apply PIntex.Rabs_le' in EP, EQ. destruct up.
    + exists (Point_new (A := RA) (px p) (py p)), s. split; [left; auto|]. split; [left; auto|]. unfold sg, Point_new. cbn [py]. change (@nround8 RA) with Rround8.
      specialize (RND (py p)). apply PIntex.Rabs_le' in RND. lra.
    + exists (Point_new (A := RA) (px q) (py q)), s. split; [left; auto|]. split; [right; left; auto|]. unfold sg, Point_new. cbn [py]. change (@nround8 RA) with Rround8.
      specialize (RND (py q)). apply PIntex.Rabs_le' in RND. lra.
Qed.

(** ** The shell next to the head *)
Lemma graph_points : forall (intex : nat -> res (pdict (A := RA))) gr g, renew intex gr = Ok g -> forall p s, In (p, s) (ip_int g ++ ip_ext g) ->
  exists k d x p', intex k = Ok d /\ row_of s d = Ok x /\ In p' (pr_internal x ++ pr_external x) /\ p = Point_new (A := RA) (px p') (py p').
Proof.
  intros intex gr g E p s. unfold renew in E. set (g0 := MContain.mkip gr [] [] []) in E. assert (H0 : In (p, s) (ip_int g0 ++ ip_ext g0) -> False) by (intros []). clearbody g0.
  revert E H0. generalize 0%nat. revert g0. induction gr as [|w gr IH]; intros g0 k E H0 I; [injection E as <-; contradiction|]. cbn [add_intex_points] in E.
  destruct (intex k) as [d0|]; [|discriminate E]. cbn [bind] in E. destruct (row_of w d0); [|discriminate E]. cbn [bind] in E.
  destruct (intex (1 + k)%nat) as [d1|] eqn:E1; [|discriminate E]. cbn [bind] in E. destruct (row_of w d1) as [x1|] eqn:R1; [|discriminate E]. cbn [bind] in E.
  destruct (intex (2 + k)%nat) as [d2|] eqn:E2; [|discriminate E]. cbn [bind] in E. destruct (row_of w d2) as [x2|] eqn:R2; [|discriminate E]. cbn [bind] in E.
  destruct (intex (3 + k)%nat) as [d3|]; [|discriminate E]. cbn [bind] in E. destruct (row_of w d3) as [x3|]; [|discriminate E]. cbn [bind] in E.
  match type of E with add_intex_points _ _ _ ?g1 = _ => destruct (in_dec (fun a b : pt RA * seg RA => ltac:(repeat decide equality; apply Req_EM_T)) (p, s) (ip_int g1 ++ ip_ext g1)) as [Y|N] end.
  - cbn [ip_int ip_ext] in Y. rewrite !in_app_iff in Y. assert (H1 : ~ In (p, s) (ip_int g0) /\ ~ In (p, s) (ip_ext g0)) by (rewrite in_app_iff in H0; tauto). destruct H1 as [N1 N2].
    destruct Y as [[Y|Y]|[Y|Y]]; try contradiction; apply in_map_iff in Y as (p' & Q & Y); injection Q as <- <-.
    + exists (1 + k)%nat, d1, x1, p'. rewrite in_app_iff. auto.
    + exists (2 + k)%nat, d2, x2, p'. rewrite in_app_iff. auto.
  - apply (IH _ _ E); auto.
Qed.
Lemma row_in : forall s (d : pdict (A := RA)) x, row_of s d = Ok x -> exists t, In (t, x) d.
Proof.
  intros s d x. induction d as [|[t r] d IH]; [discriminate|]. cbn [row_of]. destruct (row_of s d) as [y|].
  - intros E. destruct (IH E) as (t' & I). exists t'. right. auto.
  - destruct (seg_sameb t s); [|discriminate]. intros [= <-]. exists t. left. auto.
Qed.
Lemma mantel_rows : forall inside (X div cap : R) gr d, mantel_intex (A := RA) inside X div cap gr = Ok d -> forall t x p, In (t, x) d -> In p (pr_internal x ++ pr_external x) ->
  In t gr /\ exists ps, probe_points (A := RA) X div cap t = Ok ps /\ In p ps.
Proof.
  intros inside X div cap gr d E. unfold mantel_intex in E. revert d E. generalize 0%nat. induction gr as [|w gr IH]; intros k d E t x p I P; cbn [length seq combine mapM] in E; [injection E as <-; destruct I|].
  destruct (side_row inside X div cap k w) as [[t0 x0]|] eqn:SR; [|discriminate E]. cbn [bind] in E.
  match type of E with bind ?z _ = _ => destruct z as [d'|] eqn:ED; [|discriminate E] end. cbn [bind] in E. injection E as <-. destruct I as [Q|I].
  - injection Q as -> ->. unfold side_row in SR. destruct (probe_points (A := RA) X div cap w) as [ps|] eqn:EP; [|discriminate SR]. cbn [bind] in SR.
    match type of SR with bind ?z _ = _ => destruct z as [r|] eqn:ER; [|discriminate SR] end. cbn [bind] in SR. injection SR as <- <-. cbn [pr_internal pr_external] in P. split; [left; auto|]. exists ps. split; auto.
    assert (PR : In p (map fst r)).
    { apply in_app_iff in P as [P|P]; apply in_map_iff in P as (y & <- & P); apply filter_In in P as [P _]; apply in_map; auto. }
    clear - ER PR. revert r ER PR. generalize 0%nat. induction ps as [|a ps IH]; intros j r ER PR; cbn [length seq combine mapM] in ER; [injection ER as <-; destruct PR|].
    destruct (side_of inside k j a) as [b|]; [|discriminate ER]. cbn [bind] in ER. match type of ER with bind ?z _ = _ => destruct z as [r'|] eqn:E'; [|discriminate ER] end. cbn [bind] in ER. injection ER as <-.
    destruct PR as [<-|PR]; [left; auto|right; eapply IH; eauto].
  - destruct (IH (S k) d' ED t x p I P) as (J & ps & H). split; [right; auto|eauto].
Qed.
(** The points of a Mantel are near one of its walls, at 1/100 or 99/100 of the height. *)
Definition by_the_wall (x0 : R) (u v : level) (p : pt RA) : Prop :=
  exists side t f n, (side = 1 \/ side = -1) /\ 1 / 100 <= t <= 99 / 100 /\ Rabs f <= snd u / 100000 + 1 / 10^8 /\ Rabs n <= 5 / 10^9 /\
    px p - x0 = side * (snd u / 2 + t * (snd v / 2 - snd u / 2)) + f /\ py p - fst u = t * (fst v - fst u) + n.
Lemma shell_near : forall x0 inside u v r, decimal8 x0 -> decimal8 (fst u) -> decimal8 (fst v) -> decimal8 (snd u / 2) -> decimal8 (snd v / 2) -> 0 < snd u -> 0 < snd v -> fst u < fst v ->
  graph_of x0 inside (Shell u v) = Ok r -> forall p s, In (p, s) (ip_int r ++ ip_ext r) -> by_the_wall x0 u v p.
Proof.
  intros x0 inside u v r D0 U1 V1 U2 V2 U3 V3 L EG p s I. unfold graph_of in EG. destruct (graph_points _ _ _ EG p s I) as (k & d & x & p' & ED & RO & IP & ->). clear EG I.
  apply row_in in RO as (t & RO). cbn [probes_of] in ED. destruct (mantel_rows _ _ _ _ _ _ ED t x p' RO IP) as (IT & ps & EP & IPS). clear ED RO IP x d.
  assert (ST : stored p') by (apply PIntex.probe_stored in EP; rewrite Forall_forall in EP; auto). rewrite PSides.stored_new by auto.
  assert (DH : decimal8 (fst v - fst u)) by (replace (fst v - fst u) with (fst v + - fst u) by ring; apply dec_add; auto; apply dec_opp; auto).
  unfold shell in IT. rewrite PIntex.mantel_trap in IT by auto. set (w0 := snd u / 2) in *. set (w1 := snd v / 2) in *. set (h := fst v - fst u) in *. assert (PH : 0 < h) by (unfold h; lra). assert (W0 : 0 < w0) by (unfold w0; lra).
  assert (EB : forall e0, 0 < w0 / 50000 -> Rabs (Rmin e0 (Rmin (w0 / 50000) (2 / 1000))) <= Rmax (w0 / 50000) (- e0)).
  { intros e0 W. unfold Rmin, Rmax. repeat destruct Rle_dec; unfold Rabs; destruct Rcase_abs; lra. }
  assert (CASE : forall (sd e : R) (sgn : seg RA) (q : R -> R), t = sgn -> Rabs e <= w0 / 50000 -> (sd = 1 \/ sd = -1) -> (forall y, 1 / 100 <= y <= 99 / 100 -> 1 / 100 <= q y <= 99 / 100) ->
    (forall y, px (si sgn) + y * (px (sj sgn) - px (si sgn)) = x0 + sd * (w0 + q y * (w1 - w0))) -> (forall y, py (si sgn) + y * (py (sj sgn) - py (si sgn)) = fst u + q y * h) ->
    (exists ps', probe_points (A := RA) x0 50000 (2 / 1000) sgn = Ok ps' /\ Forall2 (fun '(t, f) p => exists m n, Rabs m <= 1 / 10^8 /\ Rabs n <= 5 / 10^9 /\
      p = @mkpt RA (px (si sgn) + t * (px (sj sgn) - px (si sgn)) + f + m) (py (si sgn) + t * (py (sj sgn) - py (si sgn)) + n))
      [(1 / 100, e); (1 / 100, - e); (99 / 100, e); (99 / 100, - e)] ps') -> by_the_wall x0 u v p').
  { intros sd e sgn q -> HE HS HQ HX HY (ps' & EP' & F). rewrite EP in EP'. injection EP' as <-.
    assert (FE : forall f m, (f = e \/ f = - e) -> Rabs m <= 1 / 10^8 -> Rabs (f + m) <= snd u / 100000 + 1 / 10^8).
    { intros f m Hf Hm. eapply Rle_trans; [apply Rabs_triang|]. assert (Rabs f <= w0 / 50000) by (destruct Hf as [-> | ->]; rewrite ?Rabs_Ropp; auto). replace (snd u / 100000) with (w0 / 50000) by (unfold w0; field). lra. }
    assert (PT : forall y f m n, 1 / 100 <= y <= 99 / 100 -> (f = e \/ f = - e) -> Rabs m <= 1 / 10^8 -> Rabs n <= 5 / 10^9 ->
      by_the_wall x0 u v (@mkpt RA (px (si sgn) + y * (px (sj sgn) - px (si sgn)) + f + m) (py (si sgn) + y * (py (sj sgn) - py (si sgn)) + n))).
    { intros y f m n Y Hf Hm Hn. exists sd, (q y), (f + m), n. cbn [px py]. rewrite HX, HY. fold w0 w1 h. repeat split; auto; try (apply HQ; auto); try ring. }
    destruct (PIntex.Forall2_4 _ _ _ _ _ _ _ _ F) as (a & b & c & d & -> & (ma & na & Ma & Na & ->) & (mb & nb & Mb & Nb & ->) & (mc & nc & Mc & Nc & ->) & (md & nd & Md & Nd & ->)).
    destruct IPS as [<-|[<-|[<-|[<-|[]]]]]; apply PT; auto; lra. }
  unfold PIntex.trap in IT. cbn [wall_segments filter is_wall sc Wall NonWall scls_eqb] in IT. set (p1 := @mkpt RA (x0 + w0) (fst u)) in *. set (p2 := @mkpt RA (x0 + w1) (fst u + h)) in *. set (p3 := @mkpt RA (x0 - w1) (fst u + h)) in *. set (p4 := @mkpt RA (x0 - w0) (fst u)) in *.
  destruct IT as [<-|[<-|[]]].
  - set (e := Rmin (h / 10) (Rmin (w0 / 50000) (2 / 1000))). assert (E1 : 0 < e <= w0 / 50000) by (unfold e, Rmin; repeat destruct Rle_dec; lra).
    apply (CASE 1 e (Wall p1 p2) (fun y => y)); auto; try (intros y; unfold p1, p2; cbn [si sj Wall px py]; ring); [rewrite Rabs_pos_eq; lra|].
    apply (PIntex.probe_points_spec x0 50000 (2 / 1000) (Wall p1 p2) p1 p2 e).
    + unfold p1, p2. cbn [si sj Wall py]. replace (Rltb (fst u + h) (fst u)) with false by (symmetry; apply Rltb_false; lra). reflexivity.
    + unfold p1, p2. cbn [px py]. replace (fst u + h - fst u) with h by ring. replace (x0 + w0 - x0) with w0 by ring. fold e. symmetry. apply Rabs_pos_eq. lra.
  - apply (CASE (-1) (w0 / 50000) (Wall p3 p4) (fun y => 1 - y)); auto; try (intros y; unfold p3, p4; cbn [si sj Wall px py]; ring); [rewrite Rabs_pos_eq; lra|intros; lra|].
    apply (PIntex.probe_points_spec x0 50000 (2 / 1000) (Wall p3 p4) p4 p3 (w0 / 50000)).
    + unfold p3, p4. cbn [si sj Wall py]. replace (Rltb (fst u) (fst u + h)) with true by (symmetry; apply Rltb_true; lra). reflexivity.
    + unfold p3, p4. cbn [px py]. replace (fst u + h - fst u) with h by ring. replace (x0 - w0 - x0) with (- w0) by ring.
      unfold Rmin. repeat destruct Rle_dec; try lra. rewrite Rabs_left; lra.
Qed.
(** They are over the head, if the Mantel is long enough. *)
Lemma near_over : forall x0 (up : bool) u v p, let m := if up then u else v in let w := if up then v else u in let hg := Rmax (1 / 10) (snd m / 1000) in
  1 / 10^4 <= snd m -> snd m <= snd w -> hg + 1 / 50 <= fst v - fst u -> by_the_wall x0 u v p -> over_roof (fst m) x0 (snd m) (sg up) hg p.
Proof.
  intros x0 up u v p m w hg DM DW HH (side & t & f & n & SD & T & F & N & EX & EY). assert (G : 1 / 10 <= hg) by apply Rmax_l. clearbody hg.
  apply PIntex.Rabs_le' in N. set (h := fst v - fst u) in *.
  assert (T1 : h / 100 <= t * h <= 99 / 100 * h) by (split; [replace (h / 100) with (1 / 100 * h) by field|]; apply Rmult_le_compat_r; lra).
  assert (HY : h / 100 - 5 / 10^9 <= sg up * (py p - fst m)).
  { unfold m, sg. destruct up; [rewrite EY; lra|]. replace (py p - fst v) with (py p - fst u - h) by (unfold h; ring). rewrite EY. lra. }
  assert (HX : snd m / 2 - snd m / 100000 - 1 / 10^8 <= Rabs (px p - x0)).
  { rewrite EX. set (b := snd u / 2 + t * (snd v / 2 - snd u / 2)). assert (B : Rabs (side * b) = Rabs b) by (rewrite Rabs_mult; destruct SD as [-> | ->]; rewrite ?Rabs_R1, ?Rabs_Ropp, ?Rabs_R1, ?Rmult_1_l; auto; replace (Rabs (-1)) with 1 by (rewrite Rabs_left; lra); ring).
    assert (TR : Rabs (side * b) <= Rabs (side * b + f) + Rabs f).
    { replace (side * b) with (side * b + f + - f) at 1 by ring. eapply Rle_trans; [apply Rabs_triang|]. rewrite Rabs_Ropp. lra. }
    rewrite B in TR. pose proof (Rle_abs b) as AB. unfold m, w in *. destruct up.
    - assert (0 <= t * (snd v / 2 - snd u / 2)) by (apply Rmult_le_pos; lra). unfold b in *. lra.
    - assert (X : 1 / 100 * (snd u / 2 - snd v / 2) <= (1 - t) * (snd u / 2 - snd v / 2)) by (apply Rmult_le_compat_r; lra).
      replace b with (snd v / 2 + (1 - t) * (snd u / 2 - snd v / 2)) in * by (unfold b; ring). lra. }
  unfold over_roof. split; [lra|]. set (z := Rabs (px p - x0) / (snd m / 2)). clearbody m w.
  assert (Z : 1 - z <= 22 / 100000).
  { unfold z. apply (Rmult_le_reg_r (snd m / 2)); [lra|]. replace ((1 - Rabs (px p - x0) / (snd m / 2)) * (snd m / 2)) with (snd m / 2 - Rabs (px p - x0)) by (field; lra). lra. }
  assert (hg * (1 - z) <= hg * (22 / 100000)) by (apply Rmult_le_compat_l; lra). lra.
Qed.

Lemma end_case : forall x0 bot top a l gf (W : list (seg RA)) inside (up : bool), let e := if up then last l a else a in let k := if up then top else bot in
  measured x0 (a :: l) -> rising a l -> l <> [] -> Permutation gf (concat (standing_parts x0 bot top a l)) -> 1 / 10^4 <= snd e ->
  (forall p b, PSides.says gf p b -> 0 < sg up * (py p - fst e) -> PSides.says W p b) ->
  exists g, graph_of x0 inside (End k up e) = Ok g /\ PSides.fits (PSides.says W) (End k up e) g.
Proof.
  intros x0 bot top a l gf W inside up e k M RI NE G D T. assert (IE : In e (a :: l)) by (unfold e; destruct up; [apply last_in|left; auto]).
  destruct M as [M0 M1]. destruct (M1 e IE) as (E1 & E2 & E3). pose proof (PSides.says_end x0 bot top a l gf (conj M0 M1) RI NE G up) as SE. cbv zeta in SE. fold e k in SE.
  destruct k eqn:K.
  - destruct (flat_beyond x0 inside up e M0 E1 E2 E3) as (g & EG & G1 & G2 & p & s & IS & IP & HP). exists g. split; auto. cbn [PSides.fits]. constructor; auto. exists p, s. auto.
  - destruct (PSides.dome_sided x0 bot top a l gf (conj M0 M1) RI NE G inside up K D) as (g & EG & S1). fold e in EG. exists g. split; auto. cbn [PSides.fits].
    destruct (PPartition.head_points x0 inside up e M0 E1 E2 D) as (g' & EG' & _ & _ & _ & _ & H1 & H2 & _). rewrite EG in EG'. injection EG' as <-.
    revert S1. apply sided_mono. intros p s b I Q. apply T; auto. apply in_app_iff in I as [I|I]; [destruct (H1 p s I) as [[X _] _]|destruct (H2 p s I) as [[X _] _]]; auto.
Qed.
Lemma shell_case : forall x0 bot top a l gf (W : list (seg RA)) inside u v,
  measured x0 (a :: l) -> rising a l -> Permutation gf (concat (standing_parts x0 bot top a l)) -> In (u, v) (pairs (a :: l)) -> fst u < fst v ->
  (let h := fst v - fst u in let steep := 1 + Rabs (snd v - snd u) / (2 * h) in steep <= 10^6 * h /\ steep <= 100 * snd u /\ steep <= 20000) ->
  (forall k, right_answers (inside (Shell u v) k) (outline_of x0 u v)) ->
  (forall p b, PSides.says gf p b -> fst u < py p < fst v -> by_the_wall x0 u v p -> PSides.says W p b) ->
  exists g, graph_of x0 inside (Shell u v) = Ok g /\ PSides.fits (PSides.says W) (Shell u v) g.
Proof.
  intros x0 bot top a l gf W inside u v M RI G I L F AN T.
  assert (UV : In u (a :: l) /\ In v (a :: l)) by (apply In_nth_error in I as [k K]; apply pairs_nth in K as [I1 I2]; split; eapply nth_error_In; eauto).
  destruct (PSides.shell_sided x0 bot top a l gf M RI G inside u v I AN L F) as (g & EG & S1). exists g. split; auto. cbn [PSides.fits].
  destruct M as [M0 M1]. destruct (M1 u (proj1 UV)) as (U1 & U2 & U3). destruct (M1 v (proj2 UV)) as (V1 & V2 & V3).
  revert S1. apply sided_mono. intros p s b IP Q. apply T; auto.
  - apply (shell_heights x0 inside u v g) with (s := s); auto; lra.
  - apply (shell_near x0 inside u v g) with (s := s); auto; lra.
Qed.
Lemma in_shell_parts : forall l a c, rising a l -> fair_shells a l -> In c (shell_parts a l) -> exists u v, c = Shell u v /\ In (u, v) (pairs (a :: l)) /\ fst u < fst v /\
  let h := fst v - fst u in let steep := 1 + Rabs (snd v - snd u) / (2 * h) in steep <= 10^6 * h /\ steep <= 100 * snd u /\ steep <= 20000.
Proof.
  intros l a c RI FS I. destruct (PSides.parts_cases Flat Flat a l c RI FS) as [(up & ->)|H]; [right; right; auto| |exact H].
  exfalso. clear - I. revert a I. induction l as [|b l IH]; intros a I; [destruct I|]. destruct I as [E|I]; [discriminate E|]. change (In (End (if up then Flat else Flat) up (if up then last (b :: l) a else a)) (shell_parts b l)) in I.
  generalize dependent (if up then last (b :: l) a else a). intros x I. clear IH. revert b I. induction l as [|c l IH]; intros b I; [destruct I|]. destruct I as [E|I]; [discriminate E|]. eapply IH. exact I.
Qed.

(** ** The parts around the room into which the head bulges *)
Lemma bulge_fits : forall x0 bot top (up : bool) a l1 l2 inside c, let m := last l1 a in
  measured x0 (a :: l1 ++ l2) -> rising a (l1 ++ l2) -> l1 <> [] -> l2 <> [] -> fair_shells a (l1 ++ l2) -> (forall u, In u (a :: l1 ++ l2) -> 1 / 10^4 <= snd u) -> bulge_roomy up a l1 l2 ->
  (forall u v k, right_answers (inside (Shell u v) k) (outline_of x0 u v)) -> In c (bulge_parts bot top up a l1 l2) -> c <> End Dome up m ->
  exists g, graph_of x0 inside c = Ok g /\ PSides.fits (PSides.says (bulge_side x0 bot top up a l1 l2)) c g.
Proof.
  intros x0 bot top up a l1 l2 inside c m M RI N1 N2 FS DI BR AN IC NC.
  destruct (PPlate.rising_app _ _ _ RI) as [RI1 RI2]. fold m in RI2. destruct (PStories.fair_app _ _ _ FS) as [FS1 FS2]. fold m in FS2. assert (Im : In m (a :: l1)) by apply last_in.
  destruct M as [D0 MM]. assert (I1 : incl (a :: l1) (a :: l1 ++ l2)) by (intros u [<-|U]; [left; auto|right; apply in_app_iff; auto]).
  assert (I2 : incl (m :: l2) (a :: l1 ++ l2)) by (intros u [<-|U]; [apply I1; auto|right; apply in_app_iff; auto]).
  assert (M1 : measured x0 (a :: l1)) by (split; auto). assert (M2 : measured x0 (m :: l2)) by (split; auto). destruct (proj2 M1 m Im) as (B1 & B2 & B3). pose proof (DI m (I1 m Im)) as DM.
  set (hg := Rmax (1 / 10) (snd m / 1000)) in *. assert (HG : 1 / 10 <= hg) by apply Rmax_l.
  unfold bulge_parts in IC. fold m in IC. destruct IC as [E|IC]; [congruence|]. unfold bulge_roomy in BR. fold m in BR. unfold bulge_side. fold m. destruct up.
  - destruct BR as (v & l' & E & S1 & S2). assert (L : fst m < fst v) by (rewrite E in RI2; destruct RI2 as [X _]; lra). fold hg in S1. rewrite Rabs_pos_eq in S1 by lra.
    set (gf := concat (standing_parts x0 Flat top m l2)). set (W := closed_by x0 Dome true m ++ concat (closed_by x0 top true (last l2 m) :: shells x0 m l2)).
    assert (T : forall p b, PSides.says gf p b -> over_roof (fst m) x0 (snd m) (sg true) hg p -> PSides.says W p b).
    { intros p b Q O. apply (bulge_same x0 true false m _ gf); try apply Permutation_refl; auto; [lra|]. destruct O as [O _]. unfold sg in O. intros E2. rewrite E2 in O. lra. }
    assert (RV : rising v l') by (rewrite E in RI2; apply RI2).
    destruct IC as [<-|IC].
    + apply (end_case x0 Flat top m l2 gf W inside true M2 RI2 N2 (Permutation_refl _)); [apply DI, I2, last_in|]. intros p b Q H. apply T; auto. apply beyond_over; [lra|]. fold hg.
      assert (fst v <= fst (last l2 m)) by (apply (rising_last l2 m v RI2); rewrite E; right; left; auto). unfold sg in *. lra.
    + destruct (in_shell_parts l2 m c RI2 FS2 IC) as (u & w & -> & IP & LU & FU). apply (shell_case x0 Flat top m l2 gf W inside u w M2 RI2 (Permutation_refl _) IP LU FU); [apply AN|].
      intros p b Q H BW. apply T; auto. rewrite E in IP. change (In (u, w) ((m, v) :: pairs (v :: l'))) in IP. destruct IP as [X|IP].
      * injection X as <- <-. apply (near_over x0 true m v p); auto; cbv zeta; fold hg; lra.
      * assert (IU : In u (v :: l')) by (apply In_nth_error in IP as [k K]; apply pairs_nth in K as [K1 K2]; eapply nth_error_In; eauto).
        pose proof (rising_from l' v u RV IU). apply beyond_over; [lra|]. fold hg. unfold sg. lra.
  - destruct BR as (v & l' & E & S1 & S2).
    assert (X : exists b l'', l' ++ [v] = b :: l'') by (destruct l' as [|b l'']; cbn [app]; eauto). destruct X as (b0 & l'' & EB).
    assert (EA : a = b0 /\ l1 = l'' ++ [m]) by (assert (Y : a :: l1 = b0 :: l'' ++ [m]) by (rewrite E; change [v; m] with ([v] ++ [m]); rewrite app_assoc, EB; reflexivity); injection Y; auto).
    destruct EA as [<- EL]. assert (LV : last l'' a = v).
    { assert (Z : last (a :: l'') a = v) by (rewrite <- EB; apply last_last). rewrite <- Z. destruct l'' as [|q l'']; reflexivity. }
    assert (RV : rising a l'' /\ rising v [m]) by (rewrite EL in RI1; destruct (PPlate.rising_app _ _ _ RI1) as [X Y]; rewrite LV in Y; auto). destruct RV as [RV1 RV2].
    assert (L : fst v < fst m) by (destruct RV2; lra). fold hg in S1. rewrite Rabs_left in S1 by lra.
    assert (UPV : forall u, In u (a :: l'') -> fst u <= fst v) by (intros u U; rewrite <- LV; apply (rising_last l'' a u RV1 U)).
    set (gf := concat (standing_parts x0 bot Flat a l1)). set (W := closed_by x0 Dome false m ++ concat (closed_by x0 bot false a :: shells x0 a l1)).
    assert (T : forall p b, PSides.says gf p b -> over_roof (fst m) x0 (snd m) (sg false) hg p -> PSides.says W p b).
    { intros p b Q O. apply (bulge_same x0 false true m _ gf); auto; [lra| |].
      - unfold gf, standing_parts. cbn [concat]. fold m. rewrite !app_assoc. apply Permutation_app_tail. apply Permutation_app_comm.
      - destruct O as [O _]. unfold sg in O. intros E2. rewrite E2 in O. lra. }
    destruct IC as [<-|IC].
    + apply (end_case x0 bot Flat a l1 gf W inside false M1 RI1 N1 (Permutation_refl _)); [apply DI; left; auto|]. intros p b Q H. apply T; auto. apply beyond_over; [lra|]. fold hg.
      pose proof (UPV a (or_introl eq_refl)). unfold sg in *. lra.
    + destruct (in_shell_parts l1 a c RI1 FS1 IC) as (u & w & -> & IP & LU & FU). apply (shell_case x0 bot Flat a l1 gf W inside u w M1 RI1 (Permutation_refl _) IP LU FU); [apply AN|].
      intros p b Q H BW. apply T; auto. rewrite E in IP. rewrite PPartition.pairs_join in IP. apply in_app_iff in IP as [IP|[X|[]]].
      * assert (IW : In w (a :: l'')) by (rewrite <- EB; apply In_nth_error in IP as [k K]; apply pairs_nth in K as [K1 K2]; eapply nth_error_In; eauto).
        pose proof (UPV w IW). apply beyond_over; [lra|]. fold hg. unfold sg. lra.
      * injection X as <- <-. apply (near_over x0 false v m p); auto; cbv zeta; fold hg; lra.
Qed.

(*@ C103_other_parts *)
(** C103: all the other parts of the vessel that a head divides.  The shell into which the head bulges is at least
    2 cm longer than the head is high and does not narrow; the shells are not too flat or small (as in C98).  A part,
    other than the head, belongs to the wall of one of the two rooms (on the hollow side or not), r is this room; k is
    the name of this part only.  Then raum_intex reports r, and only r, inside of it, if it is a shell or a head, and as
    indifferent, if it is a flat end; nothing is outside; whatever the other rooms and parts, the order of the rooms and
    of their walls, and for all answers about inner points that are right off the walls of r.  In particular the probe
    points of the shell around the dividing head are not disturbed by it. *)
Lemma other_parts : forall x0 bot top (up : bool) a l1 l2 inside_m (hollow : bool) c,
  measured x0 (a :: l1 ++ l2) -> rising a (l1 ++ l2) -> l1 <> [] -> l2 <> [] -> fair_shells a (l1 ++ l2) -> (forall u, In u (a :: l1 ++ l2) -> 1 / 10^4 <= snd u) -> bulge_roomy up a l1 l2 ->
  (forall u v k, right_answers (inside_m (Shell u v) k) (outline_of x0 u v)) ->
  In c (if hollow then hollow_parts bot top up a l1 l2 else bulge_parts bot top up a l1 l2) -> c <> End Dome up (last l1 a) ->
  exists g, graph_of x0 inside_m c = Ok g /\
  forall (prepare : iroom RA -> res unit) (inside : nat -> iroom RA -> pt RA -> res bool) k names turn r front back vs,
  once_in (seen_as turn k g) r -> (forall r' y, In r' (front ++ back) -> In y (walls_in r') -> p_name y <> k) ->
  NoDup names -> (forall r' y, In r' (front ++ r :: back) -> In y (walls_in r') -> In (p_name y) names) ->
  (forall r', prepare r' = Ok tt) -> (forall n r' p, exists b, inside n r' p = Ok b) ->
  (let W := if hollow then hollow_side x0 bot top up a l1 l2 else bulge_side x0 bot top up a l1 l2 in
   polygon_of vs W /\ forall n p, off_walls W p -> inside n r p = Ok (even_odd vs p)) ->
  exists t, raum_intex prepare inside names (front ++ r :: back) = Ok t /\ lookup String.eqb k t = Ok (told_alone c (ir_name r)).
Proof.
  intros x0 bot top up a l1 l2 inside_m hollow c M RI N1 N2 FS DI BR AN IC NC. set (W := if hollow then hollow_side x0 bot top up a l1 l2 else bulge_side x0 bot top up a l1 l2).
  assert (FG : exists g, graph_of x0 inside_m c = Ok g /\ PSides.fits (PSides.says W) c g).
  { unfold W. destruct hollow; [|apply (bulge_fits x0 bot top up a l1 l2 inside_m c); auto].
    destruct (PPlate.rising_app _ _ _ RI) as [RI1 RI2]. destruct (PStories.fair_app _ _ _ FS) as [FS1 FS2]. assert (Im : In (last l1 a) (a :: l1)) by apply last_in.
    assert (I1 : incl (a :: l1) (a :: l1 ++ l2)) by (intros u [<-|U]; [left; auto|right; apply in_app_iff; auto]).
    assert (I2 : incl (last l1 a :: l2) (a :: l1 ++ l2)) by (intros u [<-|U]; [apply I1; auto|right; apply in_app_iff; auto]).
    destruct M as [D0 MM]. unfold hollow_parts in IC. unfold hollow_side. destruct up; rewrite <- PSides.walls_parts.
    - apply (PStories.story_fits x0 inside_m (SpecStories.mkstory bot Dome a l1)); cbn [SpecStories.story_from SpecStories.story_levels]; auto; split; auto.
    - apply (PStories.story_fits x0 inside_m (SpecStories.mkstory Dome top (last l1 a) l2)); cbn [SpecStories.story_from SpecStories.story_levels]; auto; split; auto. }
  destruct FG as (g & EG & F). exists g. split; auto. intros prepare inside k names turn r front back vs O OT ND NM PR T [PO A].
  apply (alone (PSides.says W) prepare inside c g k names turn r front back); auto.
  intros n p. destruct (T n r p) as (b & E). exists b. split; auto. intros d [OW Q]. rewrite (A n p OW) in E. injection E as <-. rewrite (PSides.hits_cycle vs W p PO). exact Q.
Qed.

(*@ex C103_other_parts_example *)
(** C103: the vessel of C102_head_example: a cylinder of diameter 2 with flat ends A and D at 0 m and 6 m, two shells B and C,
    and a head H at 3 m that bulges upwards, into the room R2: what is reported for the parts other than H.  All the
    hypotheses can be met. *)
Lemma other_example : let a := (0, 2) in let m := (3, 2) in let z := (6, 2) in
  exists gr inside t, let wall k c := seen_as (fun s => s) k (gr c) in
  (exists ans, forall c, In c [End Flat false a; Shell a m; End Dome true m; Shell m z; End Flat true z] -> graph_of 1 ans c = Ok (gr c)) /\
  raum_intex (A := RA) (fun _ => Ok tt) inside ["A"; "B"; "C"; "D"; "H"]%string
    [mkiroom "R2" [] [wall "D" (End Flat true z); wall "H" (End Dome true m); wall "C" (Shell m z)]; mkiroom "R1" [] [wall "H" (End Dome true m); wall "A" (End Flat false a); wall "B" (Shell a m)]]%string = Ok t /\
  lookup String.eqb "A"%string t = Ok (mkintex [] [] ["R1"])%string /\ lookup String.eqb "B"%string t = Ok (mkintex ["R1"] [] [])%string /\
  lookup String.eqb "C"%string t = Ok (mkintex ["R2"] [] [])%string /\ lookup String.eqb "D"%string t = Ok (mkintex [] [] ["R2"])%string.
Proof.
  intros a m z. assert (M : measured 1 (a :: [m] ++ [z])).
  { split; [exists 100000000%Z; lra|]. unfold a, m, z. intros u [<-|[<-|[<-|[]]]]; cbn [fst snd]; (split; [|split]); try lra.
    - exists 0%Z. lra.
    - exists 100000000%Z. lra.
    - exists 300000000%Z. lra.
    - exists 100000000%Z. lra.
    - exists 600000000%Z. lra.
    - exists 100000000%Z. lra. }
  assert (RI : rising a ([m] ++ [z])) by (cbn; lra).
  set (ans := fun (c : vpart) (_ _ _ _ : nat) p => match c with Shell u v => PIntex.answer_for (outline_of 1 u v) p | _ => Ok true end).
  assert (AM : forall u v k, right_answers (ans (Shell u v) k) (outline_of 1 u v)) by (intros; apply PIntex.answer_right).
  assert (AB : Rabs (2 - 2) = 0) by (replace (2 - 2) with 0 by ring; apply Rabs_R0).
  assert (FS : fair_shells a ([m] ++ [z])) by (cbn; rewrite AB; lra).
  assert (DI : forall u, In u (a :: [m] ++ [z]) -> 1 / 10^4 <= snd u) by (intros u [<-|[<-|[<-|[]]]]; cbn; lra).
  assert (BR : bulge_roomy true a [m] [z]).
  { exists z, []. split; auto. unfold roomy, m, z. cbn [last fst snd]. rewrite Rabs_pos_eq by lra. split; [|lra]. assert (Rmax (1 / 10) (2 / 1000) <= 1) by (apply Rmax_lub; lra). lra. }
  destruct (PPartition.head_polygons 1 Flat Flat true a [m] [z] M RI ltac:(discriminate) ltac:(discriminate) ltac:(simpl; lia)) as [(vs1 & P1) (vs2 & P2)].
  set (gr := fun c => match graph_of 1 ans c with Ok g => g | Err _ => MContain.mkip [] [] [] [] end).
  assert (OP := fun hollow c => other_parts 1 Flat Flat true a [m] [z] ans hollow c M RI ltac:(discriminate) ltac:(discriminate) FS DI BR AM). change (last [m] a) with m in OP.
  destruct (OP true (End Flat false a) ltac:(simpl; auto) ltac:(discriminate)) as (gA & EA & HA). destruct (OP true (Shell a m) ltac:(simpl; auto) ltac:(discriminate)) as (gB & EB & HB).
  destruct (OP false (Shell m z) ltac:(simpl; auto) ltac:(discriminate)) as (gC & EC & HC). destruct (OP false (End Flat true z) ltac:(simpl; auto) ltac:(discriminate)) as (gD & ED & HD). clear OP.
  assert (GH : exists g, graph_of 1 ans (End Dome true m) = Ok g).
  { destruct M as [M0 M1]. destruct (M1 m ltac:(simpl; auto)) as (B1 & B2 & _). destruct (PPartition.head_points 1 ans true m M0 B1 B2) as (g & E & _); [cbn; lra|eauto]. }
  destruct GH as (gH & EH).
  assert (GA : gr (End Flat false a) = gA) by (unfold gr; rewrite EA; reflexivity). assert (GB : gr (Shell a m) = gB) by (unfold gr; rewrite EB; reflexivity).
  assert (GC : gr (Shell m z) = gC) by (unfold gr; rewrite EC; reflexivity). assert (GD : gr (End Flat true z) = gD) by (unfold gr; rewrite ED; reflexivity). assert (GHH : gr (End Dome true m) = gH) by (unfold gr; rewrite EH; reflexivity).
  clearbody gr. set (inside := fun (_ : nat) (ro : iroom RA) p => Ok (even_odd (if String.eqb (ir_name ro) "R1" then vs1 else vs2) p)).
  set (wall := fun k c => seen_as (fun s => s) k (gr c)).
  set (r1 := mkiroom "R1" [] [wall "H" (End Dome true m); wall "A" (End Flat false a); wall "B" (Shell a m)]%string).
  set (r2 := mkiroom "R2" [] [wall "D" (End Flat true z); wall "H" (End Dome true m); wall "C" (Shell m z)]%string).
  assert (ND : NoDup ["A"; "B"; "C"; "D"; "H"]%string) by (repeat constructor; simpl; intuition discriminate).
  assert (NM : forall r y, In r [r2; r1] -> In y (walls_in r) -> In (p_name y) ["A"; "B"; "C"; "D"; "H"]%string) by (intros r y [<-|[<-|[]]]; cbn [walls_in r1 r2 ir_innen ir_aussen app]; intros [<-|[<-|[<-|[]]]]; cbn; tauto).
  assert (T : forall n r p, exists b, inside n r p = Ok b) by (intros n r p; unfold inside; eauto).
  destruct (HA (fun _ => Ok tt) inside "A"%string ["A"; "B"; "C"; "D"; "H"]%string (fun s => s) r1 [r2] [] vs1) as (t & ET & LA); auto.
  { exists [wall "H" (End Dome true m)]%string, [wall "B" (Shell a m)]%string. rewrite <- GA. split; [reflexivity|]. intros y [<-|[<-|[]]]; cbn; discriminate. }
  { intros r' y [<-|[]] [<-|[<-|[<-|[]]]]; cbn; discriminate. }
  destruct (HB (fun _ => Ok tt) inside "B"%string ["A"; "B"; "C"; "D"; "H"]%string (fun s => s) r1 [r2] [] vs1) as (t' & ET' & LB); auto.
  { exists [wall "H" (End Dome true m); wall "A" (End Flat false a)]%string, []. rewrite <- GB. split; [reflexivity|]. intros y [<-|[<-|[]]]; cbn; discriminate. }
  { intros r' y [<-|[]] [<-|[<-|[<-|[]]]]; cbn; discriminate. }
  rewrite ET in ET'. injection ET' as <-.
  destruct (HC (fun _ => Ok tt) inside "C"%string ["A"; "B"; "C"; "D"; "H"]%string (fun s => s) r2 [] [r1] vs2) as (t' & ET' & LC); auto.
  { exists [wall "D" (End Flat true z); wall "H" (End Dome true m)]%string, []. rewrite <- GC. split; [reflexivity|]. intros y [<-|[<-|[]]]; cbn; discriminate. }
  { intros r' y [<-|[]] [<-|[<-|[<-|[]]]]; cbn; discriminate. }
  change ([] ++ r2 :: [r1]) with ([r2] ++ r1 :: []) in ET'. rewrite ET in ET'. injection ET' as <-.
  destruct (HD (fun _ => Ok tt) inside "D"%string ["A"; "B"; "C"; "D"; "H"]%string (fun s => s) r2 [] [r1] vs2) as (t' & ET' & LD); auto.
  { exists [], [wall "H" (End Dome true m); wall "C" (Shell m z)]%string. rewrite <- GD. split; [reflexivity|]. intros y [<-|[<-|[]]]; cbn; discriminate. }
  { intros r' y [<-|[]] [<-|[<-|[<-|[]]]]; cbn; discriminate. }
  change ([] ++ r2 :: [r1]) with ([r2] ++ r1 :: []) in ET'. rewrite ET in ET'. injection ET' as <-.
  exists gr, inside, t. split; [|split; [exact ET|auto]].
  exists ans. intros c [<-|[<-|[<-|[<-|[<-|[]]]]]]; congruence.
Qed.

(** ** The whole table *)
Lemma raum_total : forall (prepare : iroom RA -> res unit) (inside : nat -> iroom RA -> pt RA -> res bool) names rooms,
  (forall r, prepare r = Ok tt) -> (forall n r p, exists b, inside n r p = Ok b) -> NoDup names -> (forall r y, In r rooms -> In y (walls_in r) -> In (p_name y) names) ->
  exists t, raum_intex prepare inside names rooms = Ok t /\ map fst t = names.
Proof.
  intros prepare inside names rooms PR T ND NM. unfold raum_intex. rewrite PSides.dedup_all by auto.
  set (F := (fun '(n, t) r => prepare r ;;; foldM (probe inside r) (ir_innen r ++ ir_aussen r) (n, t)) : nat * table -> iroom RA -> res (nat * table)).
  assert (G : forall rs n (t : table), (forall r y, In r rs -> In y (walls_in r) -> In (p_name y) names) -> map fst t = names -> exists n' (t' : table), foldM F rs (n, t) = Ok (n', t') /\ map fst t' = names).
  { intros rs. induction rs as [|r rs IH]; intros n t H K; [exists n, t; auto|]. cbn [foldM].
    destruct (PPartition.step_total prepare inside names PR T r n t K) as ([n' t'] & E & K' & _); [intros y Y; apply (H r y (or_introl eq_refl) Y)|]. unfold F at 1. rewrite E. cbn [bind].
    apply IH; auto. intros r' y R Y. apply (H r' y (or_intror R) Y). }
  destruct (G rooms 0%nat (map (fun k => (k, mkintex [] [] [])) names) NM) as (n & t & E & K); [rewrite map_map; cbn [fst]; apply map_id|]. exists t.
  split; auto. match goal with |- bind ?z _ = _ => assert (EZ : z = Ok (n, t)) by exact E; rewrite EZ end. reflexivity.
Qed.
Lemma nobody : forall (prepare : iroom RA -> res unit) (inside : nat -> iroom RA -> pt RA -> res bool) names rooms k,
  (forall r, prepare r = Ok tt) -> (forall n r p, exists b, inside n r p = Ok b) -> NoDup names -> In k names -> (forall r y, In r rooms -> In y (walls_in r) -> In (p_name y) names /\ p_name y <> k) ->
  exists t, raum_intex prepare inside names rooms = Ok t /\ lookup String.eqb k t = Ok (mkintex [] [] []).
Proof.
  intros prepare inside names rooms k PR T ND KN NM. unfold raum_intex. rewrite PSides.dedup_all by auto.
  destruct (PPartition.skip_rooms prepare inside names PR T k rooms 0%nat (map (fun k => (k, mkintex [] [] [])) names) (mkintex [] [] [])) as (n & t & E & _ & L); auto.
  - rewrite map_map. cbn [fst]. apply map_id.
  - clear - KN. induction names as [|j l IH]; [destruct KN|]. cbn [map lookup]. destruct (String.eqb_spec j k); auto. destruct KN; [congruence|auto].
  - exists t. split; auto. match goal with |- bind ?z _ = _ => assert (EZ : z = Ok (n, t)) by exact E; rewrite EZ end. reflexivity.
Qed.
Lemma table_ext : forall (F : string -> intex) names (t : table), NoDup names -> map fst t = names -> (forall k, In k names -> lookup String.eqb k t = Ok (F k)) -> t = map (fun k => (k, F k)) names.
Proof.
  intros F names. induction names as [|j l IH]; intros t ND K H; destruct t as [|[i x] t]; try discriminate K; [reflexivity|]. cbn [map fst] in K. injection K as -> K. inversion ND as [|? ? N1 N2]; subst. cbn [map]. f_equal.
  - specialize (H j (or_introl eq_refl)). cbn [lookup] in H. rewrite String.eqb_refl in H. congruence.
  - apply IH; auto. intros k I. specialize (H k (or_intror I)). cbn [lookup] in H. destruct (String.eqb_spec j k); [subst; contradiction|auto].
Qed.
Lemma names_apart : forall (name : vpart -> string) l, NoDup (map name l) -> forall p c q, l = p ++ c :: q -> forall d, In d (p ++ q) -> name d <> name c.
Proof.
  intros name l ND p c q -> d I E. rewrite map_app in ND. cbn [map] in ND. apply NoDup_remove_2 in ND. apply ND. rewrite <- map_app, <- E. apply in_map. auto.
Qed.
Lemma room_once : forall turn (name : vpart -> string) gr n cs c, NoDup (map name cs) -> In c cs -> once_in (seen_as (turn n) (name c) (gr c)) (room_of turn name gr n cs).
Proof.
  intros turn name gr n cs c ND I. apply in_split in I as (p & q & ->). exists (map (fun c => seen_as (turn n) (name c) (gr c)) p), (map (fun c => seen_as (turn n) (name c) (gr c)) q). split.
  - unfold walls_in, room_of. cbn [ir_innen ir_aussen app]. rewrite map_app. reflexivity.
  - intros y Y. rewrite <- map_app in Y. apply in_map_iff in Y as (d & <- & D). cbn [seen_as p_name]. eapply names_apart; eauto.
Qed.

(*@ C103_table *)
(** C103: the whole table of a standing vessel that a head divides into two rooms, whose parts have different names: n1 is the
    room on the hollow side of the head, n2 the one into which it bulges.  The rooms and their walls may be in any order and
    segments may be turned round.  The head has n1 inside and n2 outside; every other shell or head has its own
    room, and only it, inside, and every flat end is indifferent to its own room; other names get nothing. *)
Lemma divided_table : forall x0 bot top (up : bool) a l1 l2 inside_m (name : vpart -> string) names turn n1 n2 cs1 cs2 (prepare : iroom RA -> res unit) (inside : nat -> iroom RA -> pt RA -> res bool) vs1 vs2,
  let head := End Dome up (last l1 a) in let hollow := hollow_parts bot top up a l1 l2 in let others := tl (bulge_parts bot top up a l1 l2) in
  measured x0 (a :: l1 ++ l2) -> rising a (l1 ++ l2) -> l1 <> [] -> l2 <> [] -> fair_shells a (l1 ++ l2) -> (forall u, In u (a :: l1 ++ l2) -> 1 / 10^4 <= snd u) -> bulge_roomy up a l1 l2 ->
  (forall u v k, right_answers (inside_m (Shell u v) k) (outline_of x0 u v)) ->
  NoDup (map name (hollow ++ others)) -> NoDup names -> (forall c, In c (hollow ++ others) -> In (name c) names) ->
  Permutation cs1 hollow -> Permutation cs2 (head :: others) -> n1 <> n2 -> (forall r, prepare r = Ok tt) -> (forall n r p, exists b, inside n r p = Ok b) ->
  (let W := hollow_side x0 bot top up a l1 l2 in polygon_of vs1 W /\ forall n r p, ir_name r = n1 -> off_walls W p -> inside n r p = Ok (even_odd vs1 p)) ->
  (let W := bulge_side x0 bot top up a l1 l2 in polygon_of vs2 W /\ forall n r p, ir_name r = n2 -> off_walls W p -> inside n r p = Ok (even_odd vs2 p)) ->
  exists gr, (forall c, In c (hollow ++ others) -> graph_of x0 inside_m c = Ok (gr c)) /\
  forall rooms, (let r1 := room_of turn name gr n1 cs1 in let r2 := room_of turn name gr n2 cs2 in rooms = [r1; r2] \/ rooms = [r2; r1]) ->
  raum_intex prepare inside names rooms = Ok (map (fun k => (k, divided_told name head hollow others n1 n2 k)) names).
Proof.
  intros x0 bot top up a l1 l2 inside_m name names turn n1 n2 cs1 cs2 prepare inside vs1 vs2 head hollow others M RI N1 N2 FS DI BR AN ND NN NA PC1 PC2 DN PR T [P1 A1] [P2 A2].
  assert (EB : bulge_parts bot top up a l1 l2 = head :: others) by reflexivity.
  assert (IH : In head hollow) by (unfold hollow, hollow_parts, head; destruct up; simpl; auto).
  assert (DM : 1 / 10^4 <= snd (last l1 a)) by (apply DI; assert (X : In (last l1 a) (a :: l1)) by apply last_in; cbn [In] in *; rewrite in_app_iff; tauto).
  assert (BS : bulge_space up a l1 l2).
  { unfold bulge_space, bulge_roomy in *. destruct up; destruct BR as (v & l' & E & S1 & S2); exists v, l'; (split; [exact E|]); unfold has_space; split; auto; lra. }
  destruct (PPartition.head_divides x0 bot top up a l1 l2 inside_m M RI N1 N2 DM BS) as (gh & EGH & HD). fold head in EGH.
  assert (OP := fun (ho : bool) c => other_parts x0 bot top up a l1 l2 inside_m ho c M RI N1 N2 FS DI BR AN). fold head hollow in OP. rewrite EB in OP.
  set (gr := fun c => match graph_of x0 inside_m c with Ok g => g | Err _ => MContain.mkip [] [] [] [] end).
  assert (PD : forall c, {c = head} + {c <> head}) by (intros c; repeat decide equality; apply Req_EM_T).
  assert (GR : forall c, In c (hollow ++ others) -> graph_of x0 inside_m c = Ok (gr c)).
  { intros c I. assert (X : exists g, graph_of x0 inside_m c = Ok g); [|destruct X as (g & E); unfold gr; rewrite E; reflexivity].
    destruct (PD c) as [->|NC]; [eauto|]. apply in_app_iff in I as [I|I]; [destruct (OP true c I NC) as (g & E & _)|destruct (OP false c (or_intror I) NC) as (g & E & _)]; eauto. }
  exists gr. split; auto. intros rooms RO. cbv zeta in RO. set (r1 := room_of turn name gr n1 cs1) in *. set (r2 := room_of turn name gr n2 cs2) in *.
  assert (GU : forall c g, graph_of x0 inside_m c = Ok g -> gr c = g) by (intros c g E; unfold gr; rewrite E; reflexivity). clearbody gr.
  assert (S1 : forall y, In y (walls_in r1) -> exists c, In c hollow /\ p_name y = name c).
  { intros y Y. unfold r1, walls_in, room_of in Y. cbn [ir_innen ir_aussen app] in Y. apply in_map_iff in Y as (c & <- & C). exists c. split; auto. apply (Permutation_in _ PC1). auto. }
  assert (S2 : forall y, In y (walls_in r2) -> exists c, In c (head :: others) /\ p_name y = name c).
  { intros y Y. unfold r2, walls_in, room_of in Y. cbn [ir_innen ir_aussen app] in Y. apply in_map_iff in Y as (c & <- & C). exists c. split; auto. apply (Permutation_in _ PC2). auto. }
  assert (ND' := ND). rewrite map_app in ND'.
  assert (DJ : forall c d, In c hollow -> In d others -> name c <> name d).
  { intros c d C D E. apply in_split in C as (p & q & C). apply (names_apart name (hollow ++ others) ND p c (q ++ others)) with (d := d); [rewrite C, <- app_assoc; reflexivity|rewrite !in_app_iff; auto|auto]. }
  assert (NH : NoDup (map name hollow)) by (clear - ND'; induction (map name hollow) as [|x l IH]; [constructor|]; inversion ND' as [|? ? X Y]; subst; constructor; [intros I; apply X, in_app_iff; auto|auto]).
  assert (NO : NoDup (map name (head :: others))).
  { cbn [map]. constructor.
    - intros I. apply in_map_iff in I as (d & E & D). apply (DJ head d IH D). auto.
    - clear - ND'. induction (map name hollow) as [|x l IH]; auto. inversion ND'; subst; auto. }
  assert (NC1 : NoDup (map name cs1)) by (apply (Permutation_NoDup (Permutation_map name (Permutation_sym PC1))); auto).
  assert (NC2 : NoDup (map name cs2)) by (apply (Permutation_NoDup (Permutation_map name (Permutation_sym PC2))); auto).
  assert (NM : forall r y, In r rooms -> In y (walls_in r) -> In (p_name y) names).
  { intros r y R Y. assert (X : r = r1 \/ r = r2) by (destruct RO as [-> | ->]; destruct R as [<-|[<-|[]]]; auto). destruct X as [-> | ->].
    - destruct (S1 y Y) as (c & C & ->). apply NA, in_app_iff. auto.
    - destruct (S2 y Y) as (c & [<-|C] & ->); apply NA, in_app_iff; auto. }
  assert (O1 : forall c, In c hollow -> once_in (seen_as (turn n1) (name c) (gr c)) r1) by (intros c C; apply room_once; auto; apply (Permutation_in _ (Permutation_sym PC1)); auto).
  assert (O2 : forall c, In c (head :: others) -> once_in (seen_as (turn n2) (name c) (gr c)) r2) by (intros c C; apply room_once; auto; apply (Permutation_in _ (Permutation_sym PC2)); auto).
  destruct (raum_total prepare inside names rooms PR T NN NM) as (t & ET & KT). rewrite ET. f_equal. apply table_ext; auto. intros k KN.
  assert (ONLY : forall x, (exists t', raum_intex prepare inside names rooms = Ok t' /\ lookup String.eqb k t' = Ok x) -> lookup String.eqb k t = Ok x) by (intros x (t' & E & L); rewrite ET in E; injection E as <-; exact L).
  apply ONLY. unfold divided_told. destruct (String.eqb_spec (name head) k) as [EK|NK].
  - subst k. apply (HD prepare inside (name head) names (turn n1) (turn n2) r1 r2 [] [] [] rooms vs1 vs2); auto.
    + rewrite <- (GU head gh EGH). apply O1. auto.
    + rewrite <- (GU head gh EGH). apply O2. left. auto.
  - destruct (find (fun c => String.eqb (name c) k) hollow) as [c|] eqn:F1.
    + apply find_some in F1 as [C EK]. apply String.eqb_eq in EK. subst k. destruct (OP true c C ltac:(congruence)) as (g & EG & H). rewrite <- (GU c g EG) in H.
      assert (OT : forall y, In y (walls_in r2) -> p_name y <> name c) by (intros y Y; destruct (S2 y Y) as (d & [<-|D] & ->); [auto|intros E; apply (DJ c d C D); auto]).
      assert (RX : rooms = [] ++ r1 :: [r2] \/ rooms = [r2] ++ r1 :: []) by exact RO.
      assert (ALL : forall front back, rooms = front ++ r1 :: back -> incl (front ++ back) [r2] -> exists t', raum_intex prepare inside names rooms = Ok t' /\ lookup String.eqb (name c) t' = Ok (told_alone c n1)).
      { intros front back -> INC. apply (H prepare inside (name c) names (turn n1) r1 front back vs1); auto.
        intros r' y R Y. apply INC in R as [<-|[]]. auto. }
      destruct RX as [RX|RX]; apply (ALL _ _ RX); intros z Z; exact Z.
    + assert (NF : forall c, In c hollow -> name c <> k) by (intros c C E; pose proof (find_none _ _ F1 c C) as X; cbv beta in X; rewrite E, String.eqb_refl in X; discriminate).
      assert (OT : forall y, In y (walls_in r1) -> p_name y <> k) by (intros y Y; destruct (S1 y Y) as (d & D & ->); auto).
      destruct (find (fun c => String.eqb (name c) k) others) as [c|] eqn:F2.
      * apply find_some in F2 as [C EK]. apply String.eqb_eq in EK. subst k. destruct (OP false c (or_intror C) ltac:(congruence)) as (g & EG & H). rewrite <- (GU c g EG) in H.
        assert (RX : rooms = [r1] ++ r2 :: [] \/ rooms = [] ++ r2 :: [r1]) by exact RO.
        assert (ALL : forall front back, rooms = front ++ r2 :: back -> incl (front ++ back) [r1] -> exists t', raum_intex prepare inside names rooms = Ok t' /\ lookup String.eqb (name c) t' = Ok (told_alone c n2)).
        { intros front back -> INC. apply (H prepare inside (name c) names (turn n2) r2 front back vs2); auto.
          - apply O2. right. auto.
          - intros r' y R Y. apply INC in R as [<-|[]]. auto. }
        destruct RX as [RX|RX]; apply (ALL _ _ RX); intros z Z; exact Z.
      * apply nobody; auto. intros r y R Y. split; [eapply NM; eauto|]. assert (X : r = r1 \/ r = r2) by (destruct RO as [-> | ->]; destruct R as [<-|[<-|[]]]; auto). destruct X as [-> | ->]; auto.
        destruct (S2 y Y) as (c & [<-|C] & ->); auto. intros E. pose proof (find_none _ _ F2 c C) as X. cbv beta in X. rewrite E, String.eqb_refl in X. discriminate.
Qed.

Definition jar_name (c : vpart) : string :=
  match c with
  | Shell u _ => if Rle_dec (fst u) 1 then "B" else "C"
  | End Dome _ _ => "H"
  | End Flat _ u => if Rle_dec (fst u) 1 then "A" else "D"
  end%string.
(*@ex C103_table_example *)
(** C103: the table of the same vessel, with a part S elsewhere.  All the hypotheses can be met. *)
Lemma table_example : exists inside gr, let a := (0, 2) in let m := (3, 2) in let z := (6, 2) in let room := room_of (fun _ s => s) jar_name gr in
  raum_intex (A := RA) (fun _ => Ok tt) inside ["A"; "B"; "C"; "D"; "H"; "S"]%string
    [room "R2"%string [End Flat true z; End Dome true m; Shell m z]; room "R1"%string [End Dome true m; Shell a m; End Flat false a]] =
  Ok [("A", mkintex [] [] ["R1"]); ("B", mkintex ["R1"] [] []); ("C", mkintex ["R2"] [] []); ("D", mkintex [] [] ["R2"]); ("H", mkintex ["R1"] ["R2"] []); ("S", mkintex [] [] [])]%string.
Proof.
  set (a := (0, 2) : level). set (m := (3, 2) : level). set (z := (6, 2) : level). assert (M : measured 1 (a :: [m] ++ [z])).
  { split; [exists 100000000%Z; lra|]. unfold a, m, z. intros u [<-|[<-|[<-|[]]]]; cbn [fst snd]; (split; [|split]); try lra.
    - exists 0%Z. lra.
    - exists 100000000%Z. lra.
    - exists 300000000%Z. lra.
    - exists 100000000%Z. lra.
    - exists 600000000%Z. lra.
    - exists 100000000%Z. lra. }
  assert (RI : rising a ([m] ++ [z])) by (cbn; lra).
  set (ans := fun (c : vpart) (_ _ _ _ : nat) p => match c with Shell u v => PIntex.answer_for (outline_of 1 u v) p | _ => Ok true end).
  assert (AM : forall u v k, right_answers (ans (Shell u v) k) (outline_of 1 u v)) by (intros; apply PIntex.answer_right).
  assert (AB : Rabs (2 - 2) = 0) by (replace (2 - 2) with 0 by ring; apply Rabs_R0).
  assert (FS : fair_shells a ([m] ++ [z])) by (cbn; rewrite AB; lra).
  assert (DI : forall u, In u (a :: [m] ++ [z]) -> 1 / 10^4 <= snd u) by (intros u [<-|[<-|[<-|[]]]]; cbn; lra).
  assert (BR : bulge_roomy true a [m] [z]).
  { exists z, []. split; auto. unfold roomy, m, z. cbn [last fst snd]. rewrite Rabs_pos_eq by lra. split; [|lra]. assert (Rmax (1 / 10) (2 / 1000) <= 1) by (apply Rmax_lub; lra). lra. }
  destruct (PPartition.head_polygons 1 Flat Flat true a [m] [z] M RI ltac:(discriminate) ltac:(discriminate) ltac:(simpl; lia)) as [(vs1 & P1) (vs2 & P2)].
  set (inside := fun (_ : nat) (ro : iroom RA) p => Ok (even_odd (if String.eqb (ir_name ro) "R1" then vs1 else vs2) p)).
  assert (JN : (jar_name (End Flat false a) = "A" /\ jar_name (Shell a m) = "B" /\ jar_name (Shell m z) = "C" /\ jar_name (End Flat true z) = "D" /\ jar_name (End Dome true m) = "H")%string).
  { unfold jar_name, a, m, z. cbn [fst]. repeat destruct Rle_dec; try lra; auto. }
  destruct JN as (JA & JB & JC & JD & JH).
  destruct (divided_table 1 Flat Flat true a [m] [z] ans jar_name ["A"; "B"; "C"; "D"; "H"; "S"]%string (fun _ s => s) "R1"%string "R2"%string
    [End Dome true m; Shell a m; End Flat false a] [End Flat true z; End Dome true m; Shell m z] (fun _ => Ok tt) inside vs1 vs2) as (gr & _ & H); auto; try discriminate.
  - cbn [map hollow_parts vessel_parts bulge_parts tl shell_parts last app]. rewrite JA, JB, JC, JD, JH. repeat constructor; simpl; intuition discriminate.
  - repeat constructor; simpl; intuition discriminate.
  - cbn [hollow_parts vessel_parts bulge_parts tl shell_parts last app]. intros c [<-|[<-|[<-|[<-|[<-|[]]]]]]; rewrite ?JA, ?JB, ?JC, ?JD, ?JH; simpl; auto 10.
  - cbn [hollow_parts vessel_parts shell_parts last]. apply (Permutation_trans (l' := [End Flat false a; End Dome true m; Shell a m])); [|apply Permutation_refl].
    apply Permutation_sym, (Permutation_middle [End Dome true m; Shell a m] [] (End Flat false a)).
  - cbn [bulge_parts shell_parts last tl]. apply perm_swap.
  - intros n r p. unfold inside. eauto.
  - split; [exact P1|]. intros n r p E _. unfold inside. rewrite E. reflexivity.
  - split; [exact P2|]. intros n r p E _. unfold inside. rewrite E. reflexivity.
  - exists inside, gr. cbv zeta. etransitivity; [apply H; right; reflexivity|]. cbn [map]. unfold divided_told. cbn [hollow_parts vessel_parts bulge_parts tl shell_parts last find].
    rewrite JA, JB, JC, JD, JH. reflexivity.
Qed.
