(** contained_cycles. *)
From Coq Require Import Reals ZArith Lra Lia Bool List Psatz Permutation Classical_Prop.
From Verif Require Import Base Arith ArithR ArithF MPoint MLine MPoly MTri MGroup MContain Spec SpecInside SpecContain
  SpecBase PPoint PShape PMore PConvex PHull PCorner PEar2 PBase.
Import ListNotations.
Local Open Scope R_scope.
#[local] Existing Instance RA.

(** * The interior of a convex polygon *)
Lemma cycle_edges_cons : forall X (v : X) vs, cycle_edges (v :: vs) = combine (v :: vs) (vs ++ [v]).
Proof. reflexivity. Qed.
(** A strictly decreasing quantity around a cycle: impossible. *)
Lemma no_descent : forall X (f : X -> R) vs, vs <> [] -> (forall a b, In (a, b) (cycle_edges vs) -> f b < f a) -> False.
Proof.
  intros X f [|v vs] N H; [congruence|]. rewrite cycle_edges_cons in H.
  assert (G : forall l a, (forall x y, In (x, y) (combine (a :: l) (l ++ [v])) -> f y < f x) -> f v < f a).
  { induction l as [|b l IH]; intros a K; [apply K; cbn; auto|].
    assert (f b < f a) by (apply K; cbn; auto). assert (f v < f b) by (apply IH; intros x y I; apply K; cbn; auto). lra. }
  specialize (G vs v H). lra.
Qed.
Lemma edge_before : forall X (vs : list X) b, In b vs -> exists a, In (a, b) (cycle_edges vs).
Proof.
  intros X [|v vs] b I; [destruct I|]. rewrite cycle_edges_cons.
  assert (G : forall l a, In b (l ++ [v]) -> exists x, In (x, b) (combine (a :: l) (l ++ [v]))).
  { induction l as [|c l IH]; intros a J.
    - cbn in *. destruct J as [->|[]]. eauto.
    - cbn in J. destruct J as [->|J]; [exists a; cbn; auto|]. destruct (IH c J) as (x & K). exists x. cbn. auto. }
  apply G. apply in_or_app. cbn. destruct I as [->|I]; auto.
Qed.
Lemma edge_after : forall X (vs : list X) a, In a vs -> exists b, In (a, b) (cycle_edges vs).
Proof.
  intros X [|v vs] a I; [destruct I|]. rewrite cycle_edges_cons.
  assert (G : forall l c, In a (c :: l) -> exists x, In (a, x) (combine (c :: l) (l ++ [v]))).
  { induction l as [|d l IH]; intros c J.
    - cbn in *. destruct J as [->|[]]. eauto.
    - destruct J as [->|J]; [exists d; cbn; auto|]. destruct (IH d J) as (x & K). exists x. cbn [combine app]. right. exact K. }
  apply G. auto.
Qed.
Lemma edge_in : forall X (vs : list X) a b, In (a, b) (cycle_edges vs) -> In a vs /\ In b vs.
Proof.
  intros X [|v vs] a b I; [destruct I|]. rewrite cycle_edges_cons in I. split; [apply in_combine_l in I; auto|].
  apply in_combine_r in I. apply in_app_or in I as [I|[->|[]]]; cbn; auto.
Qed.

Lemma edge_differs : forall X (vs : list X) a b, NoDup vs -> (2 <= length vs)%nat -> In (a, b) (cycle_edges vs) -> a <> b.
Proof.
  intros X [|v [|w vs]] a b N L I; cbn in L; try lia. rewrite cycle_edges_cons in I. intros <-.
  assert (G : forall l c x, NoDup (c :: l) -> ~ In x (c :: l) -> In (a, a) (combine (c :: l) (l ++ [x])) -> False).
  { induction l as [|d l IH]; intros c x ND NI J.
    - cbn in J. destruct J as [J|[]]. injection J as -> ->. apply NI. cbn. auto.
    - cbn [app combine In] in J. inversion ND as [|? ? K M]; subst. destruct J as [J|J]; [injection J as -> ->; apply K; cbn; auto|].
      apply (IH d x); auto. intros Q. apply NI. cbn in *. auto. }
  inversion N as [|? ? K M]; subst. cbn [app combine In] in I. destruct I as [I|I]; [injection I as -> ->; apply K; cbn; auto|]. apply (G vs w v M K I).
Qed.

Lemma left_in_hull : forall (vs : list (pt RA)) p, vs <> [] -> (forall a b, In (a, b) (cycle_edges vs) -> 0 < orient a b p) ->
  in_hull (fun q => In q vs) p.
Proof.
  intros vs p NE LF dx dy D.
  destruct (existsb (fun q : pt RA => Rltb 0 (dx * (px q - px p) + dy * (py q - py p))) vs) eqn:E.
  { apply existsb_exists in E as (q & I & Q). exists q. split; auto. apply Rltb_true. auto. }
  exfalso.
  assert (F0 : forall q, In q vs -> dx * (px q - px p) + dy * (py q - py p) <= 0).
  { intros q I. apply Rnot_lt_le. intros K. assert (existsb (fun q : pt RA => Rltb 0 (dx * (px q - px p) + dy * (py q - py p))) vs = true); [|congruence].
    apply existsb_exists. exists q. split; auto. apply Rltb_true. auto. }
  set (f := fun q : pt RA => dx * (px q - px p) + dy * (py q - py p)) in *. set (g := fun q : pt RA => dx * (py q - py p) - dy * (px q - px p)).
  assert (D2 : 0 < dx * dx + dy * dy) by (destruct D; nra).
  assert (C : forall a b, In (a, b) (cycle_edges vs) -> 0 < f a * g b - g a * f b).
  { intros a b I. pose proof (LF a b I) as L. unfold orient in L. unfold f, g.
    match goal with |- 0 < ?x => replace x with ((dx * dx + dy * dy) * ((px b - px a) * (py p - py a) - (py b - py a) * (px p - px a))) by ring end. nra. }
  assert (FN : forall q, In q vs -> f q < 0).
  { intros q I. destruct (Rle_lt_or_eq_dec _ _ (F0 q I)) as [L|Z]; [exact L|]. exfalso. fold (f q) in Z.
    destruct (edge_before _ vs q I) as (a & Ia). destruct (edge_after _ vs q I) as (b & Ib).
    pose proof (C _ _ Ia) as Ca. pose proof (C _ _ Ib) as Cb. rewrite Z in Ca, Cb.
    pose proof (F0 a (proj1 (edge_in _ _ _ _ Ia))) as Fa. pose proof (F0 b (proj2 (edge_in _ _ _ _ Ib))) as Fb. fold (f a) in Fa. fold (f b) in Fb.
    assert (0 < f a * g q) by lra. assert (g q * f b < 0) by lra.
    destruct (Rtotal_order (g q) 0) as [K|[K|K]]; nra. }
  apply (no_descent _ (fun q => - (g q / f q)) vs NE). intros a b I. pose proof (C a b I) as Cab.
  destruct (edge_in _ _ _ _ I) as [Ia Ib]. pose proof (FN a Ia) as Fa. pose proof (FN b Ib) as Fb.
  assert (g a / f a < g b / f b); [|lra].
  apply (Rmult_lt_reg_r (f a * f b)); [nra|]. replace (g a / f a * (f a * f b)) with (g a * f b) by (field; lra).
  replace (g b / f b * (f a * f b)) with (f a * g b) by (field; lra). lra.
Qed.
Lemma in_hull_left : forall (S : pt RA -> Prop) a b p, a <> b -> (forall q, S q -> 0 <= orient a b q) -> in_hull S p -> 0 < orient a b p.
Proof.
  intros S a b p N LF IH. destruct (Rlt_le_dec 0 (orient a b p)) as [|L]; auto. exfalso.
  destruct (IH (py b - py a) (- (px b - px a))) as (q & Sq & Q).
  - destruct (Req_dec (py b - py a) 0) as [Ey|]; auto. right. intros Ex. apply N. destruct a as [ax ay], b as [bx by_]. cbn in *. f_equal; lra.
  - specialize (LF q Sq). unfold orient in *. nra.
Qed.

(** * contained_cycles *)
Lemma cycle_points_In : forall (parts : list (list (seg RA))) p, In p (cycle_points parts) <-> point_of parts p.
Proof.
  intros parts p. unfold cycle_points, point_of. rewrite in_flat_map. split.
  - intros (l & I & J). apply (proj2 (point_set_spec l)) in J. apply in_flat_map in J as (s & Is & Ip). eauto 6.
  - intros (l & s & I & Is & Ip). exists l. split; auto. apply (proj2 (point_set_spec l)). apply in_flat_map. eauto.
Qed.
Lemma same_set_iff : forall a b : list (pt RA), same_set a b = true <-> (forall p, In p a <-> In p b).
Proof.
  intros a b. unfold same_set. rewrite andb_true_iff, !forallb_forall.
  assert (E : forall (p : pt RA) l, existsb (pt_sameb p) l = true <-> In p l).
  { intros p l. rewrite existsb_exists. split; [intros (q & I & Q); apply pt_sameb_iff in Q; subst; auto|intros I; exists p; split; auto; apply pt_sameb_iff; auto]. }
  split.
  - intros [H1 H2] p. split; intros I; [apply E, H1|apply E, H2]; auto.
  - intros H. split; intros p I; apply E, H; auto.
Qed.

Lemma NoDup_fst : forall X Y (l : list (X * Y)) a b c, NoDup (map fst l) -> In (a, b) l -> In (a, c) l -> b = c.
Proof.
  intros X Y l a b c. induction l as [|[x y] l IH]; intros N I J; [destruct I|]. cbn in N. inversion N as [|? ? K M]; subst.
  destruct I as [I|I], J as [J|J].
  - congruence.
  - injection I as -> ->. exfalso. apply K. apply in_map_iff. exists (a, c). auto.
  - injection J as -> ->. exfalso. apply K. apply in_map_iff. exists (a, b). auto.
  - apply IH; auto.
Qed.
Lemma sublist_NoDup_map : forall X Y (f : X -> Y) a b, sublist a b -> NoDup (map f b) -> NoDup (map f a) /\ incl a b.
Proof.
  intros X Y f a b S'. induction S' as [|x a b S' IH|x a b S' IH]; intros N; [split; auto; intros ? []| |]; cbn in N; inversion N as [|? ? K M]; subst; destruct (IH M) as [I1 I2].
  - split; auto. intros y I. right. auto.
  - split; [|intros y [->|I]; [left; auto|right; auto]]. cbn. constructor; auto. intros J. apply K. apply in_map_iff in J as (y & E & J). apply in_map_iff. exists y. auto.
Qed.
Lemma sublist_filter : forall X (f : X -> bool) l, sublist (filter f l) l.
Proof. intros X f l. induction l as [|x l IH]; [apply sub_nil|]. cbn. destruct (f x); [apply sub_take|apply sub_skip]; auto. Qed.
Lemma combine_seq_nth : forall X (l : list X) k n p, In (n, p) (combine (seq k (length l)) l) <-> (k <= n)%nat /\ nth_error l (n - k) = Some p.
Proof.
  intros X l. induction l as [|x l IH]; intros k n p.
  - cbn. split; [tauto|]. intros [_ H]. destruct (n - k)%nat; discriminate.
  - cbn [length seq combine In]. rewrite IH. split.
    + intros [E|[L E]]; [injection E as <- <-; rewrite Nat.sub_diag; auto|]. split; [lia|]. replace (n - k)%nat with (Datatypes.S (n - Datatypes.S k)) by lia. exact E.
    + intros [L E]. destruct (Nat.eq_dec n k) as [->|N]; [rewrite Nat.sub_diag in E; injection E as ->; auto|]. right. split; [lia|].
      replace (n - k)%nat with (Datatypes.S (n - Datatypes.S k)) in E by lia. exact E.
Qed.

(*@ C75_contained *)
(** C75: whatever the answers.  If contained_cycles returns, there is an entry for every cycle e, in their
    order.  It lists exactly the other cycles z of which every point was, in some call, reported to be
    inside the convex hull of the points of e (a point occurs once for every part that contains it: call n
    is about the n-th). *)
Lemma contained_spec : forall inside (cycles : list (nat * list (list (seg RA)))) r, NoDup (map fst cycles) -> contained_cycles inside cycles = Ok r ->
  map fst r = map fst cycles /\
  forall e pe row, In (e, pe) cycles -> In (e, row) r ->
    NoDup row /\ incl row (map fst cycles) /\
    forall z pz, In (z, pz) cycles ->
      (In z row <-> z <> e /\ forall p, point_of pz p -> exists hull n,
         convex_hull (A := RA) (map (fun w => (px w, py w)) (flat_map point_set pe)) = Ok (Some hull) /\
         nth_error (flat_map point_set pz) n = Some p /\ inside e z n hull p = Ok true).
Proof.
  intros inside cycles r ND E. unfold contained_cycles in E. apply PBase.mapM_all in E.
  assert (M : map fst r = map fst cycles).
  { clear ND. assert (G : forall l r, Forall2 (fun x y => (let '(e, pe) := x in r <- contained_row inside cycles e pe ;; Ok (e, r)) = Ok y) l r -> map fst r = map fst l).
    { clear. intros l r F. induction F as [|[e pe] y l r H F IH]; [reflexivity|]. cbn [map]. rewrite IH. f_equal. destruct (contained_row inside cycles e pe); [|discriminate]. injection H as <-. reflexivity. }
    apply G. auto. }
  split; auto. intros e pe row I1 I2.
  assert (ROW : contained_row inside cycles e pe = Ok row).
  { destruct (Forall2_In_r _ _ _ _ _ _ E I2) as ([e' pe'] & I3 & K). destruct (contained_row inside cycles e' pe') as [row'|] eqn:ER; [|discriminate]. injection K as -> ->.
    assert (pe = pe') by (eapply NoDup_fst; eauto). subst. auto. }
  clear E M I2. unfold contained_row in ROW. destruct (filterM _ _) as [zs|] eqn:EF in ROW; [|discriminate]. injection ROW as <-.
  apply filterM_In in EF as (SUB & CH & TOT).
  destruct (sublist_NoDup_map _ _ fst _ _ (sublist_filter _ (fun '(x, _) => negb (Nat.eqb x e)) cycles) ND) as [N1 C1].
  destruct (sublist_NoDup_map _ _ fst _ _ SUB N1) as [N2 C2].
  split; [auto|]. split; [intros z I; apply in_map_iff in I as (c & <- & I); apply in_map; auto|].
  intros z pz Iz. split.
  - intros J. apply in_map_iff in J as ([z' pz'] & EQ & J). cbn in EQ. subst z'. apply CH in J as [J1 J2]. apply filter_In in J1 as [J1 J3].
    assert (pz = pz') by (exact (NoDup_fst _ _ _ _ _ _ ND Iz J1)). subst pz'. apply negb_true_iff, Nat.eqb_neq in J3. split; auto. intros p P.
    unfold cycle_points in J2 at 1. destruct (convex_hull _) as [hull|] eqn:EH; [|discriminate]. cbn [bind] in J2.
    unfold internals in J2. destruct (filterM _ _) as [ps|] eqn:EP in J2; [|discriminate]. cbn [bind] in J2. injection J2 as J2.
    apply filterM_In in EP as (_ & CP & _). pose proof (proj1 (same_set_iff _ _) J2 p) as K. apply cycle_points_In in P. apply K in P.
    apply in_map_iff in P as ([n q] & EQ & P). cbn in EQ. subst q. apply CP in P as [P1 P2]. destruct hull as [hull|]; [|discriminate].
    apply combine_seq_nth in P1 as [_ P1]. rewrite Nat.sub_0_r in P1. exists hull, n. auto.
  - intros [N A]. apply in_map_iff. exists (z, pz). split; auto.
    assert (IF : In (z, pz) (filter (fun '(x, _) => negb (Nat.eqb x e)) cycles)) by (apply filter_In; split; auto; apply negb_true_iff, Nat.eqb_neq; auto).
    apply CH. split; auto. destruct (TOT _ IF) as (b & EB). rewrite EB. f_equal.
    unfold cycle_points in EB at 1. destruct (convex_hull _) as [hull|] eqn:EH; [|discriminate]. cbn [bind] in EB.
    unfold internals in EB. destruct (filterM _ _) as [ps|] eqn:EP in EB; [|discriminate]. cbn [bind] in EB. injection EB as <-.
    apply filterM_In in EP as (SP & CP & _). apply same_set_iff. intros p. split; intros I.
    + apply in_map_iff in I as ([n q] & EQ & I). cbn in EQ. subst q. apply CP in I as [I _]. apply in_combine_r in I. auto.
    + apply cycle_points_In in I as P. destruct (A p P) as (h & n & E1 & E2 & E3). injection E1 as ->. apply in_map_iff. exists (n, p). split; auto. apply CP.
      split; auto. apply combine_seq_nth. split; [lia|]. rewrite Nat.sub_0_r. auto.
Qed.

Lemma in_hull_weaken : forall (S S' : pt RA -> Prop) p, (forall q, S q -> S' q) -> in_hull S p -> in_hull S' p.
Proof. intros S S' p H K dx dy D. destruct (K dx dy D) as (q & A & B). eauto. Qed.
Lemma filterM_total : forall X (f : X -> res bool) l, (forall x, In x l -> exists b, f x = Ok b) -> exists r, filterM f l = Ok r.
Proof. intros X f l H. destruct (filterM_ok _ f l H) as (r & E & _). eauto. Qed.

(*@ C75_interior *)
(** C75: if the inside test is right for convex polygons and every cycle has two different points, then
    contained_cycles returns and lists for e exactly the other cycles that have all their points in the
    interior of the convex hull of the points of e. *)
Lemma contained_interior : forall inside (cycles : list (nat * list (list (seg RA)))), NoDup (map fst cycles) -> right_for_convex inside ->
  (forall e pe, In (e, pe) cycles -> (forall p, point_of pe p -> stored p) /\ (exists p q, point_of pe p /\ point_of pe q /\ p <> q) /\
     forall p q, point_of pe p -> point_of pe q -> Rabs (px p - px q) < 1 / 10^5 -> Rabs (py p - py q) < 1 / 10^5 -> p = q) ->
  exists r, contained_cycles inside cycles = Ok r /\ map fst r = map fst cycles /\
    forall e pe row, In (e, pe) cycles -> In (e, row) r -> incl row (map fst cycles) /\
      forall z pz, In (z, pz) cycles -> (In z row <-> z <> e /\ forall p, point_of pz p -> in_hull (point_of pe) p).
Proof.
  intros inside cycles ND RC OKC.
  assert (HULL : forall e pe, In (e, pe) cycles -> exists vs, convex_hull (A := RA) (map (fun w => (px w, py w)) (flat_map point_set pe)) = Ok (Some (cycle_poly vs)) /\
    (forall a b q, In (a, b) (cycle_edges vs) -> In q vs -> 0 <= orient a b q) /\
    forall p, (forall a b, In (a, b) (cycle_edges vs) -> 0 < orient a b p) <-> in_hull (point_of pe) p).
  { intros e pe I. destruct (OKC e pe I) as (ST & TWO & SEP). set (ps := map (fun w : pt RA => (px w, py w)) (flat_map point_set pe) : list (R * R)).
    assert (EP : map (fun p : R * R => @mkpt RA (fst p) (snd p)) ps = cycle_points pe).
    { unfold ps, cycle_points. rewrite map_map. rewrite <- (map_id (flat_map point_set pe)) at 2. apply map_ext. intros [x y]. reflexivity. }
    pose proof (hull_spec ps) as HS. cbv zeta in HS. match type of HS with context [map ?f ps] => change (map f ps) with (map (fun p : R * R => @mkpt RA (fst p) (snd p)) ps) in HS end. rewrite EP in HS.
    destruct HS as (v & vs & EC & NDv & INC & _ & LF & _ & _ & L2 & L3).
    - intros p J. apply ST, cycle_points_In. auto.
    - intros p q Jp Jq. apply SEP; apply cycle_points_In; auto.
    - destruct TWO as (p & q & P & Q & N). exists p, q. rewrite !cycle_points_In. auto.
    - exists (v :: vs). split; [exact EC|]. split; [intros a b q E Q; apply LF; auto|]. intros p. split.
      + intros H. apply (in_hull_weaken (fun q => In q (v :: vs))); [intros q Q; apply cycle_points_In; auto|]. apply left_in_hull; [discriminate|auto].
      + intros H a b E. apply (in_hull_left (point_of pe)); auto; [|intros q Q; apply LF; auto; apply cycle_points_In; auto].
        assert (L : (2 <= length (v :: vs))%nat).
        { destruct (classic (forall a b c, In a (cycle_points pe) -> In b (cycle_points pe) -> In c (cycle_points pe) -> orient a b c = 0)) as [K|K]; [destruct (L2 K); lia|destruct (L3 K); lia]. }
        eapply edge_differs; eauto. }
  destruct (mapM_total _ _ (fun '(e, pe) => r <- contained_row inside cycles e pe ;; Ok (e, r)) cycles) as (r & ER).
  { intros [e pe] I. destruct (HULL e pe I) as (vs & EH & CV & _). unfold contained_row.
    match goal with |- context [filterM ?f ?l] => destruct (filterM_total _ f l) as (zs & EZ) end; [|rewrite EZ; cbn; eauto].
    intros [z pz] J. unfold cycle_points at 1. rewrite EH. cbn [bind]. unfold internals.
    match goal with |- context [filterM ?f ?l] => destruct (filterM_total _ f l) as (ys & EY) end; [|rewrite EY; cbn; eauto].
    intros [n p] _. destruct (RC e z n vs p CV) as (b & EB & _). eauto. }
  exists r. destruct (contained_spec inside cycles r ND ER) as (M & C). split; auto. split; auto.
  intros e pe row I J. destruct (C e pe row I J) as (_ & INC & CH). split; auto. intros z pz K. rewrite (CH z pz K).
  destruct (HULL e pe I) as (vs & EH & CV & IH). split; intros [N A]; (split; auto); intros p P.
  - destruct (A p P) as (hull & n & E1 & E2 & E3). rewrite EH in E1. injection E1 as <-. destruct (RC e z n vs p CV) as (b & EB & B). rewrite E3 in EB. injection EB as <-.
    apply IH, B. auto.
  - pose proof (proj2 (cycle_points_In pz p) P) as P'. destruct (In_nth_error _ _ P') as (n & En). exists (cycle_poly vs), n. split; auto. split; auto.
    destruct (RC e z n vs p CV) as (b & EB & B). rewrite EB. f_equal. apply B, IH. auto.
Qed.
