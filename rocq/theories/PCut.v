(** C83: cutting the parts of a vessel with a RaumEnde. *)
From Coq Require Import Reals ZArith List Bool Arith Lia Lra Psatz Permutation.
From Verif Require Import Base Arith ArithR MPoint MLine MPoly MVessel MSplit Spec SpecHeap SpecInside SpecPurge SpecSplit SpecCut PPoint PLine PPoly PShape PHeap PConvex POrder PInside PPurge PSplit.
Import ListNotations.
Local Open Scope R_scope.
#[local] Existing Instance RA.

(** ** One part *)
Lemma met_none : forall xl xr v segs, met xl xr v segs = [] -> existsb (fun s => is_a_wall s && meets xl xr v s) segs = false.
Proof. intros xl xr v segs H. apply not_true_is_false. intros T. apply existsb_exists in T as (s & I & T). assert (J : In s (met xl xr v segs)) by (apply filter_In; auto). rewrite H in J. destruct J. Qed.
Lemma met_some : forall xl xr v segs a l, met xl xr v segs = a :: l -> existsb (fun s => is_a_wall s && meets xl xr v s) segs = true.
Proof. intros xl xr v segs a l H. apply existsb_exists. exists a. assert (J : In a (met xl xr v segs)) by (rewrite H; left; reflexivity). apply filter_In in J. exact J. Qed.

Lemma split_ht_gen : forall segs xl xr v, decimal8 v -> cuttable v segs -> decided xl xr v segs ->
  (met xl xr v segs = [] -> split_ht false segs (plate xl xr v) false = mksr segs [plate xl xr v] (Ok false)) /\
  (forall a b, met xl xr v segs = [a; b] -> split_ht false segs (plate xl xr v) false = mksr (cut_where (meets xl xr v) v segs) (ring_of xl xr v a b) (Ok true)) /\
  (forall a, met xl xr v segs = [a] -> split_ht false segs (plate xl xr v) false = mksr (cut_where (meets xl xr v) v segs) [plate xl xr v] (Err IndexError)).
Proof.
  intros segs xl xr v DV CU DE. pose proof (split_by_gen CWall xl xr v segs DV CU DE) as SB. cbv zeta in SB. fold (plate xl xr v) in SB. fold (met xl xr v segs) in SB.
  assert (IN : forall s, In s (met xl xr v segs) -> is_a_wall s = true /\ spans v s = true).
  { intros s I. apply filter_In in I as [_ I]. apply andb_true_iff in I as [I1 I2]. apply meets_spans in I2. tauto. }
  pose proof (ring_pts CWall xl xr v (met xl xr v segs) DV (proj1 DE) IN [@mkpt RA xr v]) as RP. cbv zeta in RP. fold (plate xl xr v) in RP.
  unfold split_ht. rewrite SB. split; [|split].
  - intros E. rewrite (met_none _ _ _ _ E). reflexivity.
  - intros a b E. rewrite (met_some _ _ _ _ _ _ E). unfold ring. change (ij (plate xl xr v)) with [@mkpt RA xl v; @mkpt RA xr v]. rewrite RP, E. reflexivity.
  - intros a E. rewrite (met_some _ _ _ _ _ _ E). unfold ring. change (ij (plate xl xr v)) with [@mkpt RA xl v; @mkpt RA xr v]. rewrite RP, E. reflexivity.
Qed.

(** horizontal lines do not cut each other *)
Definition level (v : R) (s : seg RA) : Prop := py (si s) = v /\ py (sj s) = v.
Lemma level_ios : forall v s t, level v s -> level v t -> intersection_on_segment s t = Ok false.
Proof.
  intros v s t [A B] [C D]. unfold intersection_on_segment. destruct (touch s t); [reflexivity|].
  assert (P : is_parallel s t = true).
  { destruct (is_parallel s t) eqn:P; [reflexivity|]. apply is_parallel_false in P. rewrite crossproduct_R in P. exfalso. apply P. rewrite A, B, C, D. rring. }
  unfold intersection_point. rewrite P. reflexivity.
Qed.
Lemma level_split : forall v segs cl, (forall s, In s segs -> level v s) -> level v cl -> split_ht false segs cl false = mksr segs [cl] (Ok false).
Proof.
  intros v segs cl H C. unfold split_ht, split_by, cut_lines, intersecting_lines.
  assert (E : filterM (fun '(x, y) => intersection_on_segment (A := RA) x y) (combinations2 (cl :: wall_segments segs)) = Ok []).
  { rewrite (filterM_ok _ _ (fun _ => false)).
    - f_equal. apply filter_none. reflexivity.
    - intros [x y] I. assert (L : level v x /\ level v y).
      { assert (F : forall s, In s (cl :: wall_segments segs) -> level v s) by (intros s [<-|J]; [exact C|apply H; apply filter_In in J; tauto]).
        clear -F I. revert F I. generalize (cl :: wall_segments (A := RA) segs). intros l F I. induction l as [|z l IH]; [destruct I|].
        cbn [combinations2] in I. apply in_app_iff in I as [I|I].
        - apply in_map_iff in I as (w & E & I). injection E as <- <-. split; apply F; [left|right]; auto.
        - apply IH; auto. intros s J. apply F. right; auto. }
      apply (level_ios v); tauto. }
  rewrite E. reflexivity.
Qed.

(** ** Lists of parts *)
Lemma update_app : forall X (x y : X) a b, update (length a) y (a ++ x :: b) = a ++ y :: b.
Proof. intros X x y a b. induction a as [|z a IH]; [reflexivity|]. cbn [length app update]. f_equal. exact IH. Qed.
Lemma nth_error_mid : forall X (x : X) a b, nth_error (a ++ x :: b) (length a) = Some x.
Proof. intros X x a b. induction a as [|z a IH]; [reflexivity|exact IH]. Qed.
Lemma put_app : forall own a b, put own (a ++ b) = put own a ++ put own b.
Proof. intros. apply map_app. Qed.
Lemma put_none : forall own l, Forall (fun p => vp_ende p = false) l -> put own l = l.
Proof. intros own l H. induction H as [|p l Hp H IH]; [reflexivity|]. cbn [put map]. rewrite Hp. f_equal. exact IH. Qed.

(** k is the place of the only RaumEnde *)
Definition only (k : nat) (l : list (vpart RA)) : Prop := exists l1 e l2, l = l1 ++ e :: l2 /\ length l1 = k /\ vp_ende e = true /\
  Forall (fun p => vp_ende p = false) l1 /\ Forall (fun p => vp_ende p = false) l2.
Lemma only_put : forall k l own own', only k l -> exists e, nth_error (put own l) k = Some e /\ vp_segs e = own /\ update k (with_segs e own') (put own l) = put own' l.
Proof.
  intros k l own own' (l1 & e & l2 & -> & <- & E & F1 & F2). exists (with_segs e own). rewrite !put_app. cbn [put map]. rewrite E. fold (put own l2) (put own' l2).
  rewrite !put_none by auto. split; [apply nth_error_mid|]. split; [reflexivity|]. rewrite update_app. reflexivity.
Qed.
Lemma only_replace : forall k a p p' b, only k (a ++ p :: b) -> vp_ende p = vp_ende p' -> only k (a ++ p' :: b).
Proof.
  intros k a p p' b (l1 & e & l2 & E & L & Ee & F1 & F2) H.
  revert k l1 E L F1. induction a as [|z a IH]; intros k l1 E L F1.
  - destruct l1 as [|y l1]; cbn [app] in *.
    + injection E as -> ->. exists [], p', l2. repeat split; auto. congruence.
    + injection E as -> ->. inversion F1; subst. exists (p' :: l1), e, l2. repeat split; auto. constructor; [congruence|auto].
  - destruct l1 as [|y l1]; cbn [app] in *.
    + injection E as -> E. subst l2. exists [], e, (a ++ p' :: b). repeat split; auto. rewrite Forall_forall in *. intros q I. apply in_app_iff in I as [I|[<-|I]].
      * apply F2. apply in_app_iff; auto.
      * rewrite <- H. apply F2. apply in_app_iff. right; left; auto.
      * apply F2. apply in_app_iff. right; right; auto.
    + injection E as -> E. inversion F1; subst. destruct (IH (length l1) l1 E eq_refl H3) as (m1 & f & m2 & E1 & E2 & E3 & E4 & E5).
      exists (y :: m1), f, m2. cbn [app length]. rewrite E1, E2. repeat split; auto.
Qed.

Lemma only_other : forall k a p p' b own, only k (a ++ p :: b) -> vp_ende p = false -> nth_error (put own (a ++ p :: b)) k = nth_error (put own (a ++ p' :: b)) k.
Proof.
  intros k a p p' b own (l1 & e & l2 & E & L & Ee & _ & _) H.
  assert (K : nth_error (a ++ p :: b) k = Some e) by (rewrite E, <- L; apply nth_error_mid).
  rewrite !put_app. assert (N : length (put own a) = length a) by apply map_length.
  destruct (Nat.lt_trichotomy k (length a)) as [G|[G|G]].
  - rewrite !nth_error_app1 by (rewrite N; exact G). reflexivity.
  - rewrite G, nth_error_mid in K. injection K as ->. congruence.
  - rewrite !nth_error_app2 by (rewrite N; lia). rewrite N. destruct (k - length a)%nat eqn:D; [lia|]. reflexivity.
Qed.

Section Turn.
Variables (xl v : R) (k : nat).
Hypothesis DV : decimal8 v.
(** the RaumEnde at present: its first wall, and all its segments lie at height v *)
Definition own_ok (xr : R) (own : list (seg RA)) : Prop := (exists l, own = plate xl xr v :: l) /\ forall s, In s own -> level v s.
Lemma ring_ok : forall xr a b, own_ok (px (cut_point v b)) (ring_of xl xr v a b).
Proof. intros xr a b. split; [eexists; reflexivity|]. intros s [<-|[<-|[<-|[]]]]; split; reflexivity. Qed.

Lemma cut_own : forall xr own done p ps, own_ok xr own -> only k (done ++ p :: ps) ->
  cut_part (put own (done ++ p :: ps), Ok tt) (length done, k) =
  let q := if vp_ende p then with_segs p own else p in
  if vp_head p then (put own (done ++ p :: ps), Ok tt) else
  let c := split_ht false (vp_segs q) (plate xl xr v) false in
  let parts := put own done ++ with_segs q (sr_self c) :: put own ps in
  match sr_ret c with
  | Err x => (parts, Err x)
  | Ok false => (parts, Ok tt)
  | Ok true => (update k (match nth_error (put own (done ++ p :: ps)) k with Some e => with_segs e (sr_ht c) | None => p end) parts, Ok tt)
  end.
Proof.
  intros xr own done p ps [(l & OK) _] O. cbv zeta. unfold cut_part. destruct (only_put k (done ++ p :: ps) own own O) as (e & E1 & E2 & _). rewrite E1.
  assert (P : put own (done ++ p :: ps) = put own done ++ (if vp_ende p then with_segs p own else p) :: put own ps) by (rewrite put_app; reflexivity).
  assert (N : length done = length (put own done)) by (unfold put; rewrite map_length; reflexivity).
  rewrite P. rewrite N. rewrite nth_error_mid.
  assert (H : vp_head (if vp_ende p then with_segs p own else p) = vp_head p) by (destruct (vp_ende p); reflexivity). rewrite H.
  destruct (vp_head p); [reflexivity|]. rewrite E2, OK.
  change (wall_segments (plate xl xr v :: l)) with (plate xl xr v :: wall_segments (A := RA) l). cbv iota. rewrite <- OK. rewrite update_app. reflexivity.
Qed.

Lemma turn_run : forall st ps ps' st' r, in_turn xl v st ps ps' st' r -> forall done, only k (done ++ ps) -> own_ok (fst st) (snd st) ->
  fold_left cut_part (map (fun i => (i, k)) (seq (length done) (length ps))) (put (snd st) (done ++ ps), Ok tt) = (put (snd st') (done ++ ps'), r).
Proof.
  assert (NEXT : forall (st : R * list (seg RA)) (p p' : vpart RA) ps ps' (st' : R * list (seg RA)) r,
    (forall done, only k (done ++ ps) -> own_ok (fst st) (snd st) ->
      fold_left cut_part (map (fun i => (i, k)) (seq (length done) (length ps))) (put (snd st) (done ++ ps), Ok tt) = (put (snd st') (done ++ ps'), r)) ->
    forall own0 done, only k (done ++ p' :: ps) -> own_ok (fst st) (snd st) ->
      cut_part (put own0 (done ++ p :: ps), Ok tt) (length done, k) = (put (snd st) (done ++ p' :: ps), Ok tt) ->
      fold_left cut_part (map (fun i => (i, k)) (seq (length done) (length (p :: ps)))) (put own0 (done ++ p :: ps), Ok tt) = (put (snd st') (done ++ p' :: ps'), r)).
  { intros st p p' ps ps' st' r IH own0 done O OK C. cbn [length seq map fold_left]. rewrite C.
    specialize (IH (done ++ [p'])). rewrite <- !app_assoc in IH. cbn [app] in IH. specialize (IH O OK). rewrite app_length in IH. cbn [length] in IH. rewrite Nat.add_1_r in IH. exact IH. }
  intros st ps ps' st' r T. induction T as [st|st p ps ps' st' r E T IH|st p ps ps' st' r E Hd T IH|xr own p ps ps' st' r E Hd FI M T IH|xr own p ps ps' st' r a b E Hd FI M T IH|xr own p ps a E Hd FI M];
    intros done O OK.
  - reflexivity.
  - apply (NEXT st p p ps ps' st' r IH); auto. rewrite (cut_own (fst st)) by auto. cbv zeta. rewrite E. destruct (vp_head p); [reflexivity|].
    cbn [with_segs vp_segs]. rewrite (level_split v); [|apply OK|destruct OK as [_ OK]; split; reflexivity].
    cbn [sr_ret sr_self]. rewrite put_app. cbn [put map]. rewrite E. reflexivity.
  - apply (NEXT st p p ps ps' st' r IH); auto. rewrite (cut_own (fst st)) by auto. cbv zeta. rewrite Hd. reflexivity.
  - apply (NEXT (xr, own) p p ps ps' st' r IH); auto. cbn [fst snd] in *. rewrite (cut_own xr) by auto. cbv zeta. rewrite Hd, E.
    destruct FI as [CU DE]. rewrite (proj1 (split_ht_gen _ xl xr v DV CU DE) M). cbn [sr_ret sr_self]. rewrite put_app. cbn [put map]. rewrite E. destruct p; reflexivity.
  - set (p' := with_segs p (cut_where (meets xl xr v) v (vp_segs p))).
    assert (O' : only k (done ++ p' :: ps)) by (apply (only_replace k done p p' ps O); reflexivity).
    apply (NEXT (px (cut_point v b), ring_of xl xr v a b) p p' ps ps' st' r IH); auto; [apply ring_ok|]. cbn [fst snd] in *. rewrite (cut_own xr) by auto. cbv zeta. rewrite Hd, E.
    destruct FI as [CU DE]. rewrite (proj1 (proj2 (split_ht_gen _ xl xr v DV CU DE)) a b M). cbn [sr_ret sr_self sr_ht]. fold p'.
    replace (put own done ++ p' :: put own ps) with (put own (done ++ p' :: ps)) by (rewrite put_app; cbn [put map]; change (vp_ende p') with (vp_ende p); rewrite E; reflexivity).
    destruct (only_put k (done ++ p' :: ps) own (ring_of xl xr v a b) O') as (e & E1 & E2 & E3).
    assert (S1 : nth_error (put own (done ++ p :: ps)) k = Some e); [|rewrite S1, E3; reflexivity].
    rewrite (only_other k done p p' ps own O E). exact E1.
  - cbn [fst snd length seq map fold_left] in *. rewrite (cut_own xr) by auto. cbv zeta. rewrite Hd, E.
    destruct FI as [CU DE]. rewrite (proj2 (proj2 (split_ht_gen _ xl xr v DV CU DE)) a M). cbn [sr_ret sr_self sr_ht].
    assert (S1 : forall l parts x, fold_left (cut_part (A := RA)) l (parts, Err x) = (parts, Err x)) by (intros l; induction l as [|[i j] l IH]; intros parts x; [reflexivity|]; cbn [fold_left]; apply IH).
    rewrite S1. f_equal. rewrite put_app. cbn [put map with_segs vp_ende]. rewrite E. reflexivity.
Qed.
End Turn.

(*@ C83_in_turn *)
(** A vessel with one RaumEnde is cut part after part, in the order of the parts: see [in_turn] for what happens to each. *)
Lemma cut_in_turn : forall (l1 l2 parts' : list (vpart RA)) (e : vpart RA) (xl xr v xr' : R) (own' : list (seg RA)) (r : res unit), decimal8 v ->
  vp_ende e = true -> vp_segs e = [plate xl xr v] -> Forall (fun p => vp_ende p = false) l1 -> Forall (fun p => vp_ende p = false) l2 ->
  in_turn xl v (xr, [plate xl xr v]) (l1 ++ e :: l2) parts' (xr', own') r ->
  cut_by_raumende (l1 ++ e :: l2) = (put own' parts', r).
Proof.
  intros l1 l2 parts' e xl xr v xr' own' r DV E SE F1 F2 T.
  assert (O : only (length l1) (l1 ++ e :: l2)) by (exists l1, e, l2; auto).
  assert (OK : own_ok xl v xr [plate xl xr v]) by (split; [eexists; reflexivity|]; intros s [<-|[]]; split; reflexivity).
  pose proof (turn_run xl v (length l1) DV _ _ _ _ _ T [] O OK) as H. cbn [fst snd app length] in H.
  unfold cut_by_raumende.
  assert (P : put [plate xl xr v] (l1 ++ e :: l2) = l1 ++ e :: l2).
  { rewrite put_app. cbn [put map]. rewrite E. fold (put [plate xl xr v] l2). rewrite !put_none by auto. f_equal. f_equal. rewrite <- SE. destruct e; reflexivity. }
  assert (EN : filter (fun j => match nth_error (l1 ++ e :: l2) j with Some p => vp_ende p | None => false end) (seq 0 (length (l1 ++ e :: l2))) = [length l1]).
  { apply filter_unique; [apply seq_NoDup|apply in_seq; rewrite app_length; cbn [length]; lia|]. intros j _. split.
    - intros J. destruct (Nat.lt_trichotomy j (length l1)) as [G|[G|G]]; [|exact G|].
      + rewrite nth_error_app1 in J by exact G. destruct (nth_error l1 j) eqn:N; [|discriminate]. apply nth_error_In in N. rewrite Forall_forall in F1. rewrite F1 in J by auto. discriminate.
      + rewrite nth_error_app2 in J by lia. destruct (j - length l1)%nat as [|m] eqn:D; [lia|]. cbn [nth_error] in J. destruct (nth_error l2 m) eqn:N; [|discriminate].
        apply nth_error_In in N. rewrite Forall_forall in F2. rewrite F2 in J by auto. discriminate.
    - intros ->. rewrite nth_error_mid. exact E. }
  rewrite EN. rewrite P in H. rewrite <- H. f_equal. clear. generalize (seq 0 (length (l1 ++ e :: l2))). intros l. induction l as [|i l IH]; [reflexivity|].
  cbn [list_prod map app]. f_equal. exact IH.
Qed.

(** the RaumEnde misses these parts: nothing happens *)
Lemma turn_skip : forall xl v xr own A ps ps' st' r,
  (forall p, In p A -> vp_ende p = false -> vp_head p = false -> cut_fit xl xr v p /\ met xl xr v (vp_segs p) = []) ->
  in_turn xl v (xr, own) ps ps' st' r -> in_turn xl v (xr, own) (A ++ ps) (A ++ ps') st' r.
Proof.
  intros xl v xr own A ps ps' st' r H T. induction A as [|p A IH]; [exact T|]. cbn [app].
  assert (IH' := IH (fun q I => H q (or_intror I))). destruct (vp_ende p) eqn:E; [apply turn_ende; auto|]. destruct (vp_head p) eqn:Hd; [apply turn_head; auto|].
  destruct (H p (or_introl eq_refl) E Hd). apply turn_missed; auto.
Qed.
(** a part missed by the plate is missed by a shorter one *)
Lemma miss_shorter : forall xl xr x v p, xl < x -> x <= xr -> cut_fit xl xr v p -> met xl xr v (vp_segs p) = [] -> cut_fit xl x v p /\ met xl x v (vp_segs p) = [].
Proof.
  intros xl xr x v p L X [CU [LR DE]] M.
  assert (N : forall s, In s (vp_segs p) -> is_a_wall s = true -> meets xl xr v s = false).
  { intros s I W. apply not_true_is_false. intros T. assert (J : In s (met xl xr v (vp_segs p))) by (apply filter_In; split; [auto|rewrite W, T; reflexivity]). rewrite M in J. destruct J. }
  assert (B : forall s, In s (vp_segs p) -> is_a_wall s = true -> spans v s = true -> x_at v s <= xl - 2 / 10^5 \/ xr + 2 / 10^5 <= x_at v s).
  { intros s I W SP. pose proof (meets_false _ _ _ _ (N s I W) SP). destruct (DE s I W SP) as [D|[D|D]]; auto. exfalso. lra. }
  split; [split; [exact CU|split; [exact L|]]|].
  - intros s I W SP. destruct (B s I W SP); [left|right; right]; lra.
  - apply filter_none. intros s I. destruct (is_a_wall s) eqn:W; [cbn [andb]|reflexivity]. apply not_true_is_false. intros T. apply meets_spans in T as [SP T]. destruct (B s I W SP); lra.
Qed.
Lemma met_in : forall xl xr v p s, cut_fit xl xr v p -> In s (met xl xr v (vp_segs p)) -> spans v s = true /\ xl + 2 / 10^5 <= x_at v s <= xr - 2 / 10^5.
Proof.
  intros xl xr v p s [_ [_ DE]] I. apply filter_In in I as [I T]. apply andb_true_iff in T as [W T]. apply meets_spans in T as [SP T]. split; [exact SP|]. destruct (DE s I W SP) as [D|[D|D]]; lra.
Qed.

(*@ C83_one_part *)
(** If the RaumEnde meets walls of one part only, and two of them, this part is cut there, the RaumEnde becomes a ring that
    is open between them, and all other parts stay; the order of the parts does not matter. *)
Lemma cut_one_part : forall (l1 l2 A B : list (vpart RA)) (e q : vpart RA) (xl xr v : R) (a b : seg RA), decimal8 v ->
  vp_ende e = true -> vp_segs e = [plate xl xr v] -> Forall (fun p => vp_ende p = false) l1 -> Forall (fun p => vp_ende p = false) l2 ->
  l1 ++ e :: l2 = A ++ q :: B -> vp_ende q = false -> vp_head q = false -> cut_fit xl xr v q -> met xl xr v (vp_segs q) = [a; b] ->
  (forall p, In p A \/ In p B -> vp_ende p = false -> vp_head p = false -> cut_fit xl xr v p /\ met xl xr v (vp_segs p) = []) ->
  cut_by_raumende (l1 ++ e :: l2) = (put (ring_of xl xr v a b) (A ++ with_segs q (cut_where (meets xl xr v) v (vp_segs q)) :: B), Ok tt).
Proof.
  intros l1 l2 A B e q xl xr v a b DV E SE F1 F2 EQ Eq Hq FI M H.
  apply (cut_in_turn l1 l2 _ e xl xr v (px (cut_point v b))); auto. rewrite EQ. apply turn_skip; [intros p I; apply H; auto|].
  apply (turn_cut xl v xr _ q B _ _ _ a b); auto.
  destruct (met_in xl xr v q b FI ltac:(rewrite M; right; left; reflexivity)) as [_ XB]. pose proof (Rround8_err (x_at v b)) as RE. apply Rabs_le_inv in RE.
  rewrite <- (app_nil_r B). apply turn_skip; [|apply turn_end]. intros p I Ep Hp. destruct (H p (or_intror I) Ep Hp). apply (miss_shorter xl xr); auto; unfold cut_point; cbn [px]; lra.
Qed.

(*@ C83_missed *)
(** If the RaumEnde meets no wall, or there is none, no part changes. *)
Lemma cut_none : forall (l1 l2 : list (vpart RA)) (e : vpart RA) (xl xr v : R), decimal8 v ->
  Forall (fun p => vp_ende p = false) l1 -> Forall (fun p => vp_ende p = false) l2 ->
  cut_by_raumende (l1 ++ l2) = (l1 ++ l2, Ok tt) /\
  (vp_ende e = true -> vp_segs e = [plate xl xr v] ->
   (forall p, In p (l1 ++ l2) -> vp_head p = false -> cut_fit xl xr v p /\ met xl xr v (vp_segs p) = []) ->
   cut_by_raumende (l1 ++ e :: l2) = (l1 ++ e :: l2, Ok tt)).
Proof.
  intros l1 l2 e xl xr v DV F1 F2. split.
  - unfold cut_by_raumende. assert (N : filter (fun j => match nth_error (l1 ++ l2) j with Some p => vp_ende p | None => false end) (seq 0 (length (l1 ++ l2))) = []).
    { apply filter_none. intros j _. destruct (nth_error (l1 ++ l2) j) eqn:N; [|reflexivity]. apply nth_error_In in N. rewrite Forall_forall in F1, F2. apply in_app_iff in N as [N|N]; auto. }
    rewrite N. assert (Z : forall l : list nat, list_prod l (@nil nat) = []) by (intros l; induction l; auto). rewrite Z. reflexivity.
  - intros E SE H. rewrite (cut_in_turn l1 l2 (l1 ++ e :: l2) e xl xr v xr [plate xl xr v] (Ok tt)); auto.
    + f_equal. rewrite put_app. cbn [put map]. rewrite E. fold (put [plate xl xr v] l2). rewrite !put_none by auto. rewrite <- SE. destruct e; reflexivity.
    + apply turn_skip.
      * intros p I Ep Hp. apply H; auto. apply in_app_iff; auto.
      * apply turn_ende; auto. rewrite <- (app_nil_r l2). apply turn_skip; [|apply turn_end]. intros p I Ep Hp. apply H; auto. apply in_app_iff; auto.
Qed.

(*@ C83_inner_refuted *)
(** A RaumEnde through two parts, one inside the other: with the outer part first, the inner part is not cut although the
    RaumEnde runs through its walls, and the opening leaves nothing of the RaumEnde inside the outer part. *)
Lemma inner_not_cut : forall (outer inner e : vpart RA) (xl xr v : R) (a b a' b' : seg RA), decimal8 v ->
  vp_ende e = true -> vp_segs e = [plate xl xr v] -> vp_ende outer = false -> vp_head outer = false -> vp_ende inner = false -> vp_head inner = false ->
  cut_fit xl xr v outer -> cut_fit xl xr v inner -> met xl xr v (vp_segs outer) = [a; b] -> met xl xr v (vp_segs inner) = [a'; b'] ->
  x_at v b + 3 / 10^5 <= x_at v a' -> x_at v b + 3 / 10^5 <= x_at v b' ->
  cut_by_raumende [outer; inner; e] = ([with_segs outer (cut_where (meets xl xr v) v (vp_segs outer)); inner; with_segs e (ring_of xl xr v a b)], Ok tt).
Proof.
  intros outer inner e xl xr v a b a' b' DV E SE E1 H1 E2 H2 [CO DO] [CI DI] MO MI LA LB.
  pose proof (Rround8_err (x_at v b)) as RE. apply Rabs_le_inv in RE.
  destruct (met_in xl xr v outer b (conj CO DO) ltac:(rewrite MO; right; left; reflexivity)) as [_ XB].
  assert (BEY : forall s, In s (vp_segs inner) -> is_a_wall s = true -> spans v s = true -> x_at v s <= xl - 2 / 10^5 \/ Rround8 (x_at v b) + 2 / 10^5 <= x_at v s).
  { intros s I W SP. destruct (meets xl xr v s) eqn:M.
    - assert (J : In s (met xl xr v (vp_segs inner))) by (apply filter_In; split; [auto|rewrite W, M; reflexivity]). rewrite MI in J. destruct J as [<-|[<-|[]]]; right; lra.
    - pose proof (meets_false _ _ _ _ M SP). destruct (proj2 DI s I W SP) as [D|[D|D]]; [left; lra|exfalso; lra|right; lra]. }
  change [outer; inner; e] with ([outer; inner] ++ e :: []).
  rewrite (cut_in_turn [outer; inner] [] [with_segs outer (cut_where (meets xl xr v) v (vp_segs outer)); inner; e] e xl xr v (px (cut_point v b)) (ring_of xl xr v a b) (Ok tt)); auto.
  - cbn [put map with_segs vp_ende]. rewrite E1, E2, E. reflexivity.
  - cbn [app]. apply (turn_cut xl v xr _ outer _ _ _ _ a b); auto; [split; auto|]. apply turn_missed; auto.
    + split; [exact CI|]. split; [unfold cut_point; cbn [px]; lra|]. intros s I W SP. unfold cut_point; cbn [px]. destruct (BEY s I W SP); auto.
    + apply filter_none. intros s I. destruct (is_a_wall s) eqn:W; [cbn [andb]|reflexivity]. apply not_true_is_false. intros T. apply meets_spans in T as [SP T].
      unfold cut_point in T; cbn [px] in T. destruct (BEY s I W SP); lra.
    + apply turn_ende; auto. apply turn_end.
Qed.

(*@ C83_outer_refuted *)
(** With the inner part first, the vessel cannot be made: the left part of the ring meets one wall of the outer part only. *)
Lemma outer_fails : forall (outer inner e : vpart RA) (xl xr v : R) (a b a' b' : seg RA), decimal8 v ->
  vp_ende e = true -> vp_segs e = [plate xl xr v] -> vp_ende outer = false -> vp_head outer = false -> vp_ende inner = false -> vp_head inner = false ->
  cut_fit xl xr v outer -> cut_fit xl xr v inner -> met xl xr v (vp_segs outer) = [a; b] -> met xl xr v (vp_segs inner) = [a'; b'] ->
  x_at v b + 3 / 10^5 <= x_at v b' -> x_at v b' + 3 / 10^5 <= x_at v a ->
  snd (cut_by_raumende [inner; outer; e]) = Err IndexError.
Proof.
  intros outer inner e xl xr v a b a' b' DV E SE E1 H1 E2 H2 [CO DO] [CI DI] MO MI LA LB.
  pose proof (Rround8_err (x_at v b')) as RE. apply Rabs_le_inv in RE.
  destruct (met_in xl xr v inner b' (conj CI DI) ltac:(rewrite MI; right; left; reflexivity)) as [_ XB'].
  destruct (met_in xl xr v outer b (conj CO DO) ltac:(rewrite MO; right; left; reflexivity)) as [SB XB].
  destruct (met_in xl xr v outer a (conj CO DO) ltac:(rewrite MO; left; reflexivity)) as [SA XA].
  set (x := px (cut_point v b')). assert (X : x = Rround8 (x_at v b')) by reflexivity.
  assert (F : forall s, In s (vp_segs outer) -> is_a_wall s = true -> meets xl x v s = true -> meets xl xr v s = true /\ s <> a).
  { intros s I W T. apply meets_spans in T as [SP T]. split.
    - unfold meets. rewrite SP. destruct (Rlt_dec xl (x_at v s)); [|lra]. destruct (Rlt_dec (x_at v s) xr); [reflexivity|lra].
    - intros ->. lra. }
  assert (MB : meets xl x v b = true) by (unfold meets; rewrite SB; destruct (Rlt_dec xl (x_at v b)); [|lra]; destruct (Rlt_dec (x_at v b) x); [reflexivity|lra]).
  assert (MA : meets xl x v a = false) by (unfold meets; rewrite SA; destruct (Rlt_dec (x_at v a) x); [lra|apply andb_false_r]).
  assert (M1 : met xl x v (vp_segs outer) = [b]).
  { assert (Q : met xl x v (vp_segs outer) = filter (meets xl x v) (met xl xr v (vp_segs outer))).
    { unfold met. rewrite filter_filter. apply filter_ext_in. intros s I. destruct (is_a_wall s) eqn:W; [cbn [andb]|reflexivity].
      destruct (meets xl x v s) eqn:T; [|symmetry; apply andb_false_r]. rewrite (proj1 (F s I W T)). reflexivity. }
    rewrite Q, MO. cbn [filter]. rewrite MA, MB. reflexivity. }
  assert (FO : cut_fit xl x v outer).
  { split; [exact CO|]. split; [lra|]. intros s I W SP. destruct (meets xl xr v s) eqn:M.
    - assert (J : In s (met xl xr v (vp_segs outer))) by (apply filter_In; split; [auto|rewrite W, M; reflexivity]). rewrite MO in J. destruct J as [<-|[<-|[]]]; [right; right|right; left]; lra.
    - pose proof (meets_false _ _ _ _ M SP). destruct (proj2 DO s I W SP) as [D|[D|D]]; [left; lra|exfalso; lra|right; right; lra]. }
  change [inner; outer; e] with ([inner; outer] ++ e :: []).
  rewrite (cut_in_turn [inner; outer] [] [with_segs inner (cut_where (meets xl xr v) v (vp_segs inner)); with_segs outer (cut_where (meets xl x v) v (vp_segs outer)); e] e xl xr v x (ring_of xl xr v a' b') (Err IndexError)); auto.
  cbn [app]. apply (turn_cut xl v xr _ inner _ _ _ _ a' b'); auto; [split; auto|]. fold x.
  apply (turn_fail xl v x _ outer [e] b); auto.
Qed.

(** a shell of integer radius k from height 0 to 4 *)
Lemma shell_fit : forall k : Z, (1 <= k <= 2)%Z -> let x := IZR k in
  let a := Wall (@mkpt RA x 0) (@mkpt RA x 4) in let b := Wall (@mkpt RA (- x) 4) (@mkpt RA (- x) 0) in
  mantel_segments (A := RA) 0 0 (2 * x) (2 * x) 4 = [a; NonWall (@mkpt RA x 4) (@mkpt RA (- x) 4); b; NonWall (@mkpt RA (- x) 0) (@mkpt RA x 0)] /\
  cut_fit (-3) 3 1 (mkvp false false (mantel_segments (A := RA) 0 0 (2 * x) (2 * x) 4)) /\ met (-3) 3 1 (mantel_segments (A := RA) 0 0 (2 * x) (2 * x) 4) = [a; b] /\
  x_at 1 a = x /\ x_at 1 b = - x /\
  cut_where (meets (-3) 3 1) 1 (mantel_segments (A := RA) 0 0 (2 * x) (2 * x) 4) =
    [NonWall (@mkpt RA x 4) (@mkpt RA (- x) 4); NonWall (@mkpt RA (- x) 0) (@mkpt RA x 0);
     Wall (@mkpt RA x 0) (@mkpt RA x 1); Wall (@mkpt RA x 1) (@mkpt RA x 4); Wall (@mkpt RA (- x) 4) (@mkpt RA (- x) 1); Wall (@mkpt RA (- x) 1) (@mkpt RA (- x) 0)].
Proof.
  intros k K x a b. assert (GZ : forall n, on_grid (IZR n)) by apply grid_IZR.
  assert (X : 1 <= x <= 2) by (unfold x; split; apply IZR_le; lia).
  assert (GX : on_grid x) by apply GZ. assert (GY : on_grid (- x)) by (unfold x; rewrite <- opp_IZR; apply GZ).
  set (l := [a; NonWall (@mkpt RA x 4) (@mkpt RA (- x) 4); b; NonWall (@mkpt RA (- x) 0) (@mkpt RA x 0)]).
  assert (M : mantel_segments (A := RA) 0 0 (2 * x) (2 * x) 4 = l).
  { unfold mantel_segments, l, a, b, n2, Point_new. ra_simpl. replace (0 + 2 * x / 2) with x by lra. replace (0 - 2 * x / 2) with (- x) by lra. replace (0 + 4) with 4 by lra.
    rewrite !(Rround8_id x), !(Rround8_id (- x)), !(Rround8_id _ (GZ _)) by auto. reflexivity. }
  rewrite M. split; [reflexivity|].
  assert (CU : cuttable 1 l).
  { split; [|split; [|split]].
    - intros s [<-|[<-|[<-|[<-|[]]]]]; split; apply stored_grid; split; cbn [a b si sj px py Wall NonWall]; auto; apply GZ.
    - repeat (apply FOP_cons || apply Forall_cons || apply FOP_nil || apply Forall_nil); try (left; discriminate); right; left; intros [C1 C2]; cbn in C1, C2; apply Rabs_def2 in C1, C2; lra.
    - cbn [filter is_a_wall l a b sc Wall NonWall]. repeat (apply FOP_cons || apply Forall_cons || apply FOP_nil || apply Forall_nil). right. intros q q' (t & T & Q) (u & U & Q').
      assert (Y : 2 <= Rabs (px q - px q')) by (rewrite Q, Q'; unfold along; cbn; ra_simpl; rewrite Rabs_pos_eq; lra).
      assert (2 <= dist q q'). { eapply Rle_trans; [exact Y|]. unfold dist. rewrite <- sqrt_Rsqr_abs. apply sqrt_le_1_alt. unfold Rsqr. pose proof (pow2_ge_0 (py q - py q')). lra. }
      lra.
    - intros s [<-|[<-|[<-|[<-|[]]]]]; intros; try discriminate; split; cbn; unfold Rabs; destruct (Rcase_abs _); lra. }
  assert (XA : x_at 1 a = x) by (unfold x_at, a; cbn; ra_simpl; field). assert (XB : x_at 1 b = - x) by (unfold x_at, b; cbn; ra_simpl; field).
  assert (S1 : spans 1 a = true) by (apply spans_true; cbn; lra). assert (S2 : spans 1 b = true) by (apply spans_true; cbn; lra).
  assert (M1 : meets (-3) 3 1 a = true) by (unfold meets; rewrite S1, XA; destruct (Rlt_dec (-3) x); [|lra]; destruct (Rlt_dec x 3); [reflexivity|lra]).
  assert (M2 : meets (-3) 3 1 b = true) by (unfold meets; rewrite S2, XB; destruct (Rlt_dec (-3) (- x)); [|lra]; destruct (Rlt_dec (- x) 3); [reflexivity|lra]).
  split; [|split; [|split; [exact XA|split; [exact XB|]]]].
  - split; [exact CU|]. split; [lra|]. cbn [vp_segs]. intros s [<-|[<-|[<-|[<-|[]]]]] W _; try discriminate; right; left; lra.
  - unfold met, l. cbn [filter is_a_wall sc a b Wall NonWall andb]. fold a b. rewrite M1, M2. reflexivity.
  - unfold cut_where, l. cbn [filter is_a_wall sc a b Wall NonWall andb negb]. fold a b. rewrite M1, M2. cbn [negb app flat_map].
    unfold halves, cut_point. rewrite XA, XB, !(Rround8_id x), !(Rround8_id (- x)) by auto. reflexivity.
Qed.

(*@ex C83_example *)
(** Two shells of radius 2 and 1, 4 high, and a RaumEnde of diameter 6 at height 1: the shell named first decides. *)
Example cut_example : let i a b := @mkpt RA a b in
  let shell x := mkvp false false (mantel_segments (A := RA) 0 0 (2 * x) (2 * x) 4) in let re := mkvp false true [plate (-3) 3 1] in
  cut_by_raumende [shell 2; shell 1; re] =
    ([mkvp false false [NonWall (i 2 4) (i (- (2)) 4); NonWall (i (- (2)) 0) (i 2 0);
        Wall (i 2 0) (i 2 1); Wall (i 2 1) (i 2 4); Wall (i (- (2)) 4) (i (- (2)) 1); Wall (i (- (2)) 1) (i (- (2)) 0)];
      shell 1; mkvp false true [Wall (i (-3) 1) (i (- (2)) 1); NonWall (i (- (2)) 1) (i 2 1); Wall (i 2 1) (i 3 1)]], Ok tt) /\
  snd (cut_by_raumende [shell 1; shell 2; re]) = Err IndexError.
Proof.
  cbv zeta. destruct (shell_fit 1 ltac:(lia)) as (_ & F1 & M1 & A1 & B1 & _). destruct (shell_fit 2 ltac:(lia)) as (_ & F2 & M2 & A2 & B2 & C2).
  assert (D1 : decimal8 1) by (exists 100000000%Z; lra).
  split.
  - rewrite (inner_not_cut (mkvp false false _) (mkvp false false _) (mkvp false true [plate (-3) 3 1]) (-3) 3 1 _ _ _ _ D1 eq_refl eq_refl eq_refl eq_refl eq_refl eq_refl F2 F1 M2 M1 ltac:(rewrite B2, A1; lra) ltac:(rewrite B2, B1; lra)).
    cbn [with_segs vp_segs vp_head vp_ende]. rewrite C2. unfold ring_of, cut_point. rewrite A2, B2.
    assert (G2 : on_grid (- (2))) by (rewrite <- opp_IZR; apply grid_IZR). rewrite (Rround8_id _ G2), (Rround8_id _ (grid_IZR 2)). reflexivity.
  - apply (outer_fails (mkvp false false _) (mkvp false false _) (mkvp false true [plate (-3) 3 1]) (-3) 3 1 _ _ _ _ D1 eq_refl eq_refl eq_refl eq_refl eq_refl eq_refl F2 F1 M2 M1); [rewrite B2, B1; lra|rewrite B1, A2; lra].
Qed.
