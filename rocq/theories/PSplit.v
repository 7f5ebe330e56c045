(** C55: cutting a part at a height. *)
From Coq Require Import Reals ZArith List Bool Arith Lia Lra Psatz Permutation.
From Verif Require Import Base Arith ArithR MPoint MLine MPoly MVessel MSplit Spec SpecHeap SpecInside SpecPurge SpecSplit PPoint PLine PPoly PShape PHeap PConvex POrder PInside PPurge.
Import ListNotations.
Local Open Scope R_scope.
#[local] Existing Instance RA.

(** ** One wall and the cutter *)
Lemma spans_true : forall v s, spans v s = true <-> (py (si s) < v < py (sj s) \/ py (sj s) < v < py (si s)).
Proof.
  intros v s. unfold spans. destruct (Rlt_dec (py (si s)) v), (Rlt_dec v (py (sj s))), (Rlt_dec (py (sj s)) v), (Rlt_dec v (py (si s))); split; intros; try discriminate; auto; try lra.
Qed.

Section Cutter.
Variables (c : scls) (xl xr v : R).
Hypothesis DV : decimal8 v.
Hypothesis XL : xl < xr.
Let p := @mkpt RA xl v.
Let P := @mkpt RA xr v.
Let cl := @mkseg RA c p P.

Lemma clear_dy : forall s : seg RA, spans v s = true -> py (sj s) - py (si s) <> 0.
Proof. intros s H. apply spans_true in H. lra. Qed.

Lemma x_at_orient : forall (s : seg RA) x, spans v s = true -> orient (si s) (sj s) (@mkpt RA x v) = (py (sj s) - py (si s)) * (x_at v s - x).
Proof. intros s x H. apply clear_dy in H. unfold orient, x_at. cbn [px py]. field. exact H. Qed.

Lemma dist_y : forall (a b : pt RA) e, e <= Rabs (py a - py b) -> e <= dist a b.
Proof.
  intros a b e H. eapply Rle_trans; [exact H|]. unfold dist. rewrite <- sqrt_Rsqr_abs. apply sqrt_le_1_alt. unfold Rsqr. pose proof (pow2_ge_0 (px a - px b)). lra.
Qed.

Lemma cutter_crosses : forall s : seg RA, clear_of v s -> spans v s = true -> xl < x_at v s < xr -> crosses p P (si s) (sj s).
Proof.
  intros s [C1 C2] H X. pose proof (clear_dy s H) as DY. split; [|split].
  - unfold orient, p, P. cbn [px py]. apply spans_true in H.
    replace (((xr - xl) * (py (si s) - v) - (v - v) * (px (si s) - xl)) * ((xr - xl) * (py (sj s) - v) - (v - v) * (px (sj s) - xl)))
      with (- (((xr - xl) * (xr - xl)) * ((py (si s) - v) * (v - py (sj s))))) by ring.
    assert (0 < (xr - xl) * (xr - xl)) by nra. assert (0 < (py (si s) - v) * (v - py (sj s))) by (destruct H; nra). nra.
  - unfold p, P. rewrite !x_at_orient by auto.
    replace ((py (sj s) - py (si s)) * (x_at v s - xl) * ((py (sj s) - py (si s)) * (x_at v s - xr)))
      with (- (((py (sj s) - py (si s)) * (py (sj s) - py (si s))) * ((x_at v s - xl) * (xr - x_at v s)))) by ring.
    assert (0 < (py (sj s) - py (si s)) * (py (sj s) - py (si s))) by nra. assert (0 < (x_at v s - xl) * (xr - x_at v s)) by nra. nra.
  - intros q w Q W. apply dist_y. assert (E : py q = v) by (destruct Q as [<-|[<-|[]]]; reflexivity). rewrite E, Rabs_minus_sym.
    destruct W as [<-|[<-|[]]]; lra.
Qed.

Lemma cutter_apart : forall s : seg RA, clear_of v s -> spans v s = false -> apart p P (si s) (sj s).
Proof.
  intros s [C1 C2] H q q' (t & T & Q) (u & U & Q'). 
  assert (E : py q = v) by (rewrite Q; unfold along, p, P; cbn [px py]; rring).
  assert (NB : ~ (py (si s) < v < py (sj s) \/ py (sj s) < v < py (si s))) by (rewrite <- spans_true; rewrite H; discriminate).
  assert (Y : 2 / 10^5 <= Rabs (py q - py q')).
  { rewrite E, Q'. unfold along. cbn [py]. revert C1 C2. unfold Rabs. repeat destruct (Rcase_abs _); ra_simpl; nra. }
  pose proof (dist_y q q' _ Y). lra.
Qed.

Lemma cutter_ip : forall s : seg RA, spans v s = true -> intersection_point cl s = Ok (Some (cut_point v s)).
Proof.
  intros s H. pose proof (clear_dy s H) as DY. assert (NP : is_parallel cl s = false).
  { apply is_parallel_false. rewrite crossproduct_R. unfold cl, p, P. cbn [si sj px py]. apply spans_true in H. intros E. nra. }
  destruct (proj2 (intersection_point_spec cl s) NP) as (q & E & _ & _ & U). rewrite E.
  assert (Q : @mkpt RA (x_at v s) v = q).
  { apply U.
    - exists ((x_at v s - xl) / (xr - xl)). unfold along, cl, p, P. cbn [si sj px py]. f_equal; [|rring]. toR. field. lra.
    - exists ((v - py (si s)) / (py (sj s) - py (si s))). unfold along, x_at. f_equal; toR; field; lra. }
  rewrite <- Q. cbn [px py]. unfold cut_point. f_equal. f_equal. unfold Point_new. ra_simpl. f_equal. apply Rround8_id. apply decimal8_grid. exact DV.
Qed.

Lemma cutter_cut : forall s : seg RA, clear_of v s -> spans v s = true -> xl + 2 / 10^5 <= x_at v s <= xr - 2 / 10^5 ->
  intersection_on_segment cl s = Ok true /\ intersection_on_endpoint cl s = Ok false.
Proof.
  intros s C H X. pose proof (cutter_crosses s C H ltac:(lra)) as CR. split; [exact (ios_crosses s p P CR)|].
  unfold intersection_on_endpoint. rewrite (cutter_ip s H). cbn [bind].
  assert (T : touch cl s = false).
  { apply not_true_is_false. intros T. apply (proj1 (touch_spec cl s)) in T. unfold cl in T. cbn [si sj] in T.
    destruct CR as (_ & _ & F). assert (/ 10^8 <= dist p (si s) /\ / 10^8 <= dist p (sj s) /\ / 10^8 <= dist P (si s) /\ / 10^8 <= dist P (sj s)) by (repeat split; apply F; simpl; auto). lra. }
  rewrite T. f_equal. apply not_true_is_false. intros EX. apply existsb_exists in EX as (z & Iz & Ez). apply pt_eqb_iff in Ez.
  destruct Ez as [EX EY]. unfold cut_point in EX, EY. cbn [px py] in EX, EY. destruct C as [C1 C2]. rewrite Rabs_minus_sym in C1, C2.
  pose proof (Rround8_err (x_at v s)) as RE. apply Rabs_le_inv in RE.
  destruct Iz as [<-|[<-|[<-|[<-|[]]]]]; unfold cl, p, P in *; cbn [si sj px py] in *.
  - apply Rabs_def2 in EX. lra.
  - apply Rabs_def2 in EX. lra.
  - lra.
  - lra.
Qed.

Lemma cutter_beside : forall s : seg RA, spans v s = true -> x_at v s <= xl - 2 / 10^5 \/ xr + 2 / 10^5 <= x_at v s ->
  intersection_on_segment cl s = Ok false.
Proof.
  intros s H X. unfold intersection_on_segment. destruct (touch cl s); [reflexivity|]. rewrite (cutter_ip s H). cbn [bind].
  assert (I : ls_is_internal_point cl (cut_point v s) = false).
  { apply not_true_is_false. intros I. apply internal_iff_R in I. unfold cl, p, P, cut_point in I. cbn [si sj px py] in I.
    rewrite Rmin_left, Rmax_right in I by lra. pose proof (Rround8_err (x_at v s)) as RE. apply Rabs_le_inv in RE. lra. }
  rewrite I. reflexivity.
Qed.

Lemma cutter_miss : forall s : seg RA, clear_of v s -> spans v s = false -> intersection_on_segment cl s = Ok false.
Proof. intros s C H. exact (ios_apart s p P (cutter_apart s C H)). Qed.
End Cutter.

(** ** Which lines are cut *)
Lemma filterM_ok : forall X (f : X -> res bool) (g : X -> bool) l, (forall x, In x l -> f x = Ok (g x)) -> filterM f l = Ok (filter g l).
Proof.
  intros X f g l. induction l as [|x l IH]; intros H; simpl; auto. rewrite (H x) by (left; auto). rewrite IH by (intros; apply H; right; auto).
  simpl. destruct (g x); reflexivity.
Qed.
Lemma filterM_app : forall X (f : X -> res bool) a b, filterM f (a ++ b) = (x <- filterM f a ;; y <- filterM f b ;; Ok (x ++ y)).
Proof.
  intros X f a b. induction a as [|x a IH]; simpl.
  - destruct (filterM f b); reflexivity.
  - destruct (f x) as [c|e]; simpl; [|reflexivity]. rewrite IH. destruct (filterM f a) as [u|]; simpl; [|reflexivity].
    destruct (filterM f b); simpl; [|reflexivity]. destruct c; reflexivity.
Qed.
Lemma comb2_in : forall X (R : X -> X -> Prop) l x y, ForallOrdPairs R l -> In (x, y) (combinations2 l) -> R x y.
Proof.
  intros X R l x y F. induction F as [|a l F1 F IH]; simpl; [tauto|]. rewrite in_app_iff, in_map_iff. intros [(z & E & I)|I]; auto.
  injection E as <- <-. rewrite Forall_forall in F1. auto.
Qed.
Lemma no_crossing_ios : forall s t : seg RA, no_crossing s t -> intersection_on_segment s t = Ok false.
Proof.
  intros s t [(q & I1 & I2)|H].
  - unfold intersection_on_segment. assert (T : touch s t = true).
    { apply (proj1 (touch_spec s t)). cbv zeta. assert (Z : forall a, dist a a < / 10^8) by (intros a; unfold dist; replace ((px a - px a)^2 + (py a - py a)^2) with 0 by rring; rewrite sqrt_0; lra).
      destruct I1 as [<-|[<-|[]]], I2 as [E|[E|[]]]; rewrite E; pose proof (Z (si s)); pose proof (Z (sj s)); tauto. }
    rewrite T. reflexivity.
  - destruct (ios_sym s t) as (_ & _ & _). pose proof (ios_apart t (si s) (sj s) H) as Q.
    unfold intersection_on_segment in *. exact Q.
Qed.

Lemma is_wall_iff : forall s : seg RA, is_wall s = is_a_wall s.
Proof. intros [[] i j]; reflexivity. Qed.
Lemma walls_of : forall segs, wall_segments (A := RA) segs = filter is_a_wall segs.
Proof. intros. unfold wall_segments. apply filter_ext. apply is_wall_iff. Qed.

Lemma filter_map_pair : forall X Y (f : X * Y -> bool) (g : Y -> bool) (a : X) l, (forall y, In y l -> f (a, y) = g y) -> filter f (map (fun y => (a, y)) l) = map (fun y => (a, y)) (filter g l).
Proof.
  intros X Y f g a l. induction l as [|y l IH]; intros H; simpl; auto. rewrite (H y) by (left; auto). rewrite IH by (intros; apply H; right; auto). destruct (g y); reflexivity.
Qed.
Lemma filter_none : forall X (f : X -> bool) l, (forall x, In x l -> f x = false) -> filter f l = [].
Proof. intros X f l. induction l as [|x l IH]; intros H; simpl; auto. rewrite (H x) by (left; auto). apply IH. intros; apply H; right; auto. Qed.
Lemma filter_all : forall X (f : X -> bool) l, (forall x, In x l -> f x = true) -> filter f l = l.
Proof. intros X f l. induction l as [|x l IH]; intros H; simpl; auto. rewrite (H x) by (left; auto). f_equal. apply IH. intros; apply H; right; auto. Qed.

Lemma meets_spans : forall xl xr v s, meets xl xr v s = true -> spans v s = true /\ xl < x_at v s < xr.
Proof.
  intros xl xr v s. unfold meets. destruct (spans v s); [|discriminate]. destruct (Rlt_dec xl (x_at v s)); [|discriminate]. destruct (Rlt_dec (x_at v s) xr); [|discriminate]. auto.
Qed.
Lemma meets_false : forall xl xr v s, meets xl xr v s = false -> spans v s = true -> ~ xl < x_at v s < xr.
Proof.
  intros xl xr v s. unfold meets. intros H E. rewrite E in H. destruct (Rlt_dec xl (x_at v s)); [|lra]. destruct (Rlt_dec (x_at v s) xr); [discriminate|lra].
Qed.
Lemma reaches_decided : forall xl xr v segs, reaches xl xr v segs -> decided xl xr v segs /\ (forall s, In s segs -> is_a_wall s = true -> meets xl xr v s = spans v s).
Proof.
  intros xl xr v segs [L R]. split.
  - split; auto.
  - intros s I W. unfold meets. destruct (spans v s) eqn:E; [|reflexivity]. specialize (R s I W E). destruct (Rlt_dec xl (x_at v s)); [|lra]. destruct (Rlt_dec (x_at v s) xr); [reflexivity|lra].
Qed.
Lemma cut_lines_gen : forall c xl xr v segs, decimal8 v -> cuttable v segs -> decided xl xr v segs ->
  let cl := @mkseg RA c (@mkpt RA xl v) (@mkpt RA xr v) in
  cut_lines cl (wall_segments segs) = Ok (map (fun s => (cl, s)) (filter (meets xl xr v) (filter is_a_wall segs))).
Proof.
  intros c xl xr v segs DV (ST & DI & NC & CL) (LR & RE) cl. unfold cut_lines, intersecting_lines. rewrite walls_of. cbn [combinations2].
  set (W := filter is_a_wall segs) in *.
  assert (IW : forall s, In s W -> In s segs /\ is_a_wall s = true) by (intros s I; apply filter_In in I; exact I).
  assert (CUT : forall s, In s W -> intersection_on_segment cl s = Ok (meets xl xr v s) /\ (meets xl xr v s = true -> intersection_on_endpoint cl s = Ok false)).
  { intros s I. apply IW in I as [I1 I2]. destruct (spans v s) eqn:E.
    - destruct (meets xl xr v s) eqn:M.
      + apply meets_spans in M as [_ M]. destruct (cutter_cut c xl xr v DV LR s (CL s I1 I2) E ltac:(destruct (RE s I1 I2 E) as [?|[?|?]]; lra)). auto.
      + split; [|discriminate]. pose proof (meets_false _ _ _ _ M E). apply cutter_beside; auto. destruct (RE s I1 I2 E) as [?|[?|?]]; auto. exfalso. lra.
    - assert (M : meets xl xr v s = false) by (unfold meets; rewrite E; reflexivity). rewrite M.
      split; [|discriminate]. apply cutter_miss; auto. }
  assert (Q1 : filterM (fun '(x, y) => intersection_on_segment x y) (map (fun y => (cl, y)) W) = Ok (map (fun y => (cl, y)) (filter (meets xl xr v) W))).
  { rewrite (filterM_ok _ _ (fun c => meets xl xr v (snd c))).
    - f_equal. apply filter_map_pair. reflexivity.
    - intros k I. apply in_map_iff in I as (s & <- & I). apply CUT, I. }
  assert (Q2 : filterM (fun '(x, y) => intersection_on_segment (A := RA) x y) (combinations2 W) = Ok []).
  { rewrite (filterM_ok _ _ (fun _ => false)).
    - f_equal. apply filter_none. reflexivity.
    - intros [x y] I. apply no_crossing_ios. apply (comb2_in _ no_crossing W); auto. }
  rewrite filterM_app, Q1, Q2. cbn [bind]. rewrite app_nil_r.
  rewrite (filterM_ok _ _ (fun _ => true)).
  - f_equal. apply filter_all. reflexivity.
  - intros k I. apply in_map_iff in I as (s & <- & I). apply filter_In in I as [I E]. destruct (CUT s I) as [C1 C2]. rewrite C1, E. cbn [bind]. rewrite (C2 E). reflexivity.
Qed.

(** ** Replacing the cut walls *)
Lemma seg_eqb_iff : forall s t : seg RA, seg_eqb s t = true <-> sc s = sc t /\ close (si s) (si t) /\ close (sj s) (sj t).
Proof.
  intros s t. unfold seg_eqb. rewrite !andb_true_iff, !pt_eqb_iff.
  assert (C : scls_eqb (sc t) (sc s) = true <-> sc s = sc t) by (destruct (sc s), (sc t); simpl; split; intros; try discriminate; auto).
  rewrite C. unfold close. replace (1 / 10^5) with (1 / 100000) by lra. tauto.
Qed.
Lemma differ_eqb : forall s t : seg RA, differ s t <-> seg_eqb s t = false.
Proof.
  intros s t. rewrite <- not_true_iff_false, seg_eqb_iff. unfold differ.
  assert (D : sc s = sc t \/ sc s <> sc t) by (destruct (sc s), (sc t); auto; right; discriminate).
  unfold close. destruct D as [D|D]; [|tauto].
  assert (L : forall x y, x < y \/ ~ x < y) by (intros x y; destruct (Rlt_dec x y); auto).
  pose proof (L (Rabs (px (si s) - px (si t))) (1 / 10^5)). pose proof (L (Rabs (py (si s) - py (si t))) (1 / 10^5)).
  pose proof (L (Rabs (px (sj s) - px (sj t))) (1 / 10^5)). pose proof (L (Rabs (py (sj s) - py (sj t))) (1 / 10^5)). tauto.
Qed.
Lemma seg_eqb_refl : forall s : seg RA, seg_eqb s s = true.
Proof. intros s. apply seg_eqb_iff. split; [reflexivity|]. unfold close. rewrite !Rminus_eq_0, Rabs_R0. lra. Qed.
Lemma seg_eqb_sym : forall s t : seg RA, seg_eqb s t = seg_eqb t s.
Proof.
  intros s t. apply eq_true_iff_eq. rewrite !seg_eqb_iff. unfold close. rewrite (Rabs_minus_sym (px (si s))), (Rabs_minus_sym (py (si s))), (Rabs_minus_sym (px (sj s))), (Rabs_minus_sym (py (sj s))).
  intuition congruence.
Qed.
Lemma differ_eq : forall l, ForallOrdPairs differ l -> forall s t, In s l -> In t l -> seg_eqb s t = true -> s = t.
Proof.
  intros l F s t Is It E. destruct (ForallOrdPairs_In F s t Is It) as [H|[H|H]]; auto; apply differ_eqb in H; [|rewrite seg_eqb_sym in H]; congruence.
Qed.
Lemma differ_nodup : forall l, ForallOrdPairs differ l -> NoDup l.
Proof.
  intros l F. induction F as [|s l F1 F IH]; constructor; auto. intros I. rewrite Forall_forall in F1. specialize (F1 s I). apply differ_eqb in F1. rewrite seg_eqb_refl in F1. discriminate.
Qed.
Lemma remove_first_filter : forall X (f : X -> bool) l x, NoDup l -> (forall y, In y l -> f y = true -> y = x) -> remove_first f l = filter (fun y => negb (f y)) l.
Proof.
  intros X f l x N H. induction l as [|y l IH]; simpl; auto. inversion N as [|? ? N1 N2]; subst. destruct (f y) eqn:E; simpl.
  - symmetry. apply filter_all. intros z I. apply negb_true_iff. apply not_true_is_false. intros Ez.
    assert (y = x) by (apply H; [left; auto|auto]). assert (z = x) by (apply H; [right; auto|auto]). subst. contradiction.
  - f_equal. apply IH; auto. intros z I. apply H. right; auto.
Qed.
Lemma remove_first_app : forall X (f : X -> bool) a b, (exists x, In x a /\ f x = true) -> remove_first f (a ++ b) = remove_first f a ++ b.
Proof.
  intros X f a b (x & I & E). induction a as [|y a IH]; [destruct I|]. simpl. destruct (f y) eqn:Ey; auto. simpl. f_equal. apply IH. destruct I as [->|I]; [congruence|auto].
Qed.
Lemma filter_filter : forall X (f g : X -> bool) l, filter f (filter g l) = filter (fun x => g x && f x) l.
Proof. intros X f g l. induction l as [|x l IH]; simpl; auto. destruct (g x); simpl; rewrite ?IH; auto. Qed.
Lemma filter_unique : forall X (f : X -> bool) l x, NoDup l -> In x l -> (forall y, In y l -> f y = true <-> y = x) -> filter f l = [x].
Proof.
  intros X f l x N I H. induction l as [|y l IH]; [destruct I|]. inversion N as [|? ? N1 N2]; subst. simpl. destruct I as [->|I].
  - rewrite (proj2 (H x (or_introl eq_refl)) eq_refl). f_equal. apply filter_none. intros z Iz. apply not_true_is_false. intros E. apply H in E; [|right; auto]. subst. contradiction.
  - assert (E : f y = false) by (apply not_true_is_false; intros E; apply H in E; [|left; auto]; subst; contradiction). rewrite E. apply IH; auto. intros z Iz. apply H. right; auto.
Qed.
Lemma Point_new_stored : forall p : pt RA, stored p -> Point_new (A := RA) (px p) (py p) = p.
Proof. intros [x y] S. apply stored_grid in S as [A B]. apply Point_new_id; auto. Qed.
Lemma cut_point_stored : forall v s, decimal8 v -> stored (cut_point v s).
Proof. intros v s D. apply stored_grid. split; cbn [px py cut_point]; [apply grid_round8|apply decimal8_grid; exact D]. Qed.

Lemma cut_walls_gen : forall c xl xr v segs (g : seg RA -> bool), decimal8 v -> cuttable v segs -> xl < xr -> (forall s, g s = true -> spans v s = true) ->
  let cl := @mkseg RA c (@mkpt RA xl v) (@mkpt RA xr v) in
  let C := filter g (filter is_a_wall segs) in
  cut_walls (map (fun s => (cl, s)) C) (wall_segments segs) segs = Ok (cut_where g v segs).
Proof.
  intros c xl xr v segs g DV (ST & DI & NC & CL) LR GS cl C. rewrite walls_of. unfold cut_walls. set (W := filter is_a_wall segs) in *.
  pose proof (differ_nodup segs DI) as ND.
  assert (IW : forall s, In s W -> In s segs /\ is_a_wall s = true) by (intros s I; apply filter_In in I; exact I).
  assert (IC : forall s, In s C -> In s W /\ g s = true) by (intros s I; apply filter_In in I; exact I).
  assert (NW : NoDup W) by (apply NoDup_filter; auto). assert (NCC : NoDup C) by (apply NoDup_filter; auto).
  assert (CLS : forall s, In s W -> seg_eqb cl s = false) by (intros s I; destruct (IW s I) as [I1 I2]; apply not_true_is_false; intros E; apply seg_eqb_iff in E as (_ & [_ E] & _); destruct (CL s I1 I2) as [E2 _]; unfold cl in E; cbn [si py] in E; rewrite Rabs_minus_sym in E; lra).
  set (step := fun (segs0 : list (seg RA)) sl => _).
  (* one step *)
  assert (ONE : forall s K H, In s W -> (forall x, In x K -> In x segs) -> In s K -> NoDup K -> (forall x, In x H -> py (si x) = v \/ py (sj x) = v) ->
    step (K ++ H) s = Ok (if g s then filter (fun x => negb (seg_eqb x s)) K ++ (H ++ halves v s) else K ++ H)).
  { intros s K H Is KS Ks NK HV. destruct (IW s Is) as [Is1 Is2].
    assert (EX : existsb (fun x => seg_eqb x s) (flat_map (fun c => [fst c; snd c]) (map (fun s => (cl, s)) C)) = g s).
    { apply eq_true_iff_eq. rewrite existsb_exists. split.
      - intros (x & Ix & Ex). apply in_flat_map in Ix as (k & Ik & Ix). apply in_map_iff in Ik as (t & <- & It). destruct Ix as [<-|[<-|[]]]; cbn [fst snd] in Ex.
        + rewrite CLS in Ex by auto. discriminate.
        + destruct (IC t It) as [It1 It2]. destruct (IW t It1) as [It3 _]. rewrite <- (differ_eq segs DI t s); auto.
      - intros E. exists s. split; [|apply seg_eqb_refl]. apply in_flat_map. exists (cl, s). split; [apply in_map_iff; exists s; split; auto; apply filter_In; auto|right; left; auto]. }
    unfold step. rewrite EX. destruct (g s) eqn:SP; [|reflexivity].
    assert (FC : filter (fun c => seg_eqb (fst c) s || seg_eqb (snd c) s) (map (fun s => (cl, s)) C) = [(cl, s)]).
    { rewrite (filter_map_pair _ _ _ (fun t => seg_eqb t s)) by (intros t It; cbn [fst snd]; rewrite CLS by auto; reflexivity).
      rewrite (filter_unique _ _ _ s); auto.
      - apply filter_In; auto.
      - intros t It. destruct (IC t It) as [It1 It2]. destruct (IW t It1) as [It3 _]. split; [apply (differ_eq segs DI); auto|intros ->; apply seg_eqb_refl]. }
    rewrite FC. cbn [foldM]. unfold cut_wall. cbn [fst snd]. unfold cl at 1. rewrite (cutter_ip c xl xr v DV LR s (GS s SP)). cbn [bind].
    unfold is_a_wall in Is2. destruct (sc s) eqn:SC; try discriminate.
    rewrite (Point_new_stored (cut_point v s)) by (apply cut_point_stored; auto). destruct (ST s Is1) as [S1 S2]. rewrite !Point_new_stored by auto.
    rewrite remove_first_app by (exists s; split; [auto|apply seg_eqb_refl]).
    rewrite (remove_first_filter _ _ K s); auto; [|intros y Iy Ey; apply (differ_eq segs DI); auto].
    rewrite <- app_assoc. unfold halves. rewrite SC. reflexivity. }
  (* all steps *)
  assert (ALL : forall W2 W1, W = W1 ++ W2 ->
    foldM step W2 (filter (fun x => negb (existsb (fun s => g s && seg_eqb x s) W1)) segs ++ flat_map (halves v) (filter g W1)) = Ok (cut_where g v segs)).
  { induction W2 as [|s W2 IH]; intros W1 E.
    - rewrite app_nil_r in E. subst W1. cbn [foldM]. f_equal. unfold cut_where. f_equal.
      + apply filter_ext_in. intros x Ix. f_equal. apply eq_true_iff_eq. rewrite existsb_exists, andb_true_iff. split.
        * intros (s & Is & Es). apply andb_true_iff in Es as [E1 E2]. destruct (IW s Is) as [Is1 Is2]. rewrite (differ_eq segs DI x s); auto.
        * intros [E1 E2]. exists x. split; [apply filter_In; auto|]. rewrite E2, seg_eqb_refl. reflexivity.
      + unfold W. rewrite filter_filter. reflexivity.
    - assert (Is : In s W) by (rewrite E; apply in_or_app; right; left; auto). destruct (IW s Is) as [Is1 Is2].
      assert (NI : ~ In s W1) by (rewrite E in NW; apply NoDup_remove_2 in NW; intros I; apply NW; apply in_or_app; auto).
      cbn [foldM]. rewrite (ONE s).
      + cbn [bind]. specialize (IH (W1 ++ [s])). rewrite <- app_assoc in IH. specialize (IH E). rewrite <- IH. f_equal.
        rewrite filter_app. cbn [filter]. destruct (g s) eqn:SP.
        * rewrite flat_map_app. cbn [flat_map]. rewrite app_nil_r. f_equal. rewrite filter_filter. apply filter_ext_in. intros x Ix.
          rewrite existsb_app. cbn [existsb]. rewrite SP, orb_false_r, negb_orb. reflexivity.
        * rewrite app_nil_r. f_equal. apply filter_ext. intros x. rewrite existsb_app. cbn [existsb]. rewrite SP. cbn. rewrite orb_false_r. reflexivity.
      + exact Is.
      + intros x Ix. apply filter_In in Ix. tauto.
      + apply filter_In. split; auto. apply negb_true_iff. apply not_true_is_false. intros Ex. apply existsb_exists in Ex as (t & It & Et). apply andb_true_iff in Et as [_ Et].
        assert (In t W) by (rewrite E; apply in_or_app; auto). destruct (IW t H). assert (s = t) by (apply (differ_eq segs DI); auto). subst. contradiction.
      + apply NoDup_filter; auto.
      + intros x Ix. apply in_flat_map in Ix as (t & _ & Ix). destruct Ix as [<-|[<-|[]]]; cbn; auto. }
  specialize (ALL W [] eq_refl). cbn [filter flat_map existsb app] in ALL. rewrite app_nil_r in ALL. rewrite filter_all in ALL by reflexivity. exact ALL.
Qed.

Lemma split_by_gen : forall c xl xr v segs, decimal8 v -> cuttable v segs -> decided xl xr v segs ->
  let cl := @mkseg RA c (@mkpt RA xl v) (@mkpt RA xr v) in
  split_by cl segs = Ok (existsb (fun s => is_a_wall s && meets xl xr v s) segs, cut_where (meets xl xr v) v segs,
                         map (fun s => (cl, s)) (filter (fun s => is_a_wall s && meets xl xr v s) segs)).
Proof.
  intros c xl xr v segs DV CU RE cl. unfold split_by. unfold cl at 1. rewrite (cut_lines_gen c xl xr v segs) by auto. cbn [bind]. fold cl.
  pose proof (cut_walls_gen c xl xr v segs (meets xl xr v) DV CU (proj1 RE) ltac:(intros s M; apply meets_spans in M; tauto)) as CW. cbv zeta in CW. fold cl in CW.
  rewrite filter_filter in *. unfold cut_where in *.
  set (f := fun s => is_a_wall s && meets xl xr v s) in *.
  destruct (filter f segs) as [|s l] eqn:E.
  - cbn [map]. assert (N : forall s, In s segs -> f s = false).
    { intros s I. apply not_true_is_false. intros T. assert (In s (filter f segs)) by (apply filter_In; auto). rewrite E in H. destruct H. }
    assert (X : existsb f segs = false) by (apply not_true_is_false; intros T; apply existsb_exists in T as (s & I & T); rewrite N in T by auto; discriminate).
    rewrite X. cbn [flat_map]. rewrite app_nil_r, filter_all; [reflexivity|]. intros s I. change (negb (f s) = true). rewrite N by auto. reflexivity.
  - assert (X : existsb f segs = true).
    { apply existsb_exists. exists s. assert (I : In s (filter f segs)) by (rewrite E; left; auto). apply filter_In in I. exact I. }
    rewrite X. cbn [map] in CW |- *. rewrite CW. reflexivity.
Qed.
Lemma existsb_ext_in : forall X (f g : X -> bool) l, (forall x, In x l -> f x = g x) -> existsb f l = existsb g l.
Proof. intros X f g l. induction l as [|x l IH]; intros H; [reflexivity|]. cbn [existsb]. rewrite (H x) by (left; auto). f_equal. apply IH. intros; apply H; right; auto. Qed.
Lemma split_by_spec : forall c xl xr v segs, decimal8 v -> cuttable v segs -> reaches xl xr v segs ->
  let cl := @mkseg RA c (@mkpt RA xl v) (@mkpt RA xr v) in
  split_by cl segs = Ok (existsb (fun s => is_a_wall s && spans v s) segs, after_cut v segs,
                         map (fun s => (cl, s)) (filter (fun s => is_a_wall s && spans v s) segs)).
Proof.
  intros c xl xr v segs DV CU RE cl. destruct (reaches_decided _ _ _ _ RE) as [D M]. unfold cl. rewrite (split_by_gen c xl xr v segs DV CU D).
  assert (F : forall s, In s segs -> is_a_wall s && meets xl xr v s = is_a_wall s && spans v s) by (intros s I; destruct (is_a_wall s) eqn:W; [cbn [andb]; apply M; auto|reflexivity]).
  unfold cut_where, after_cut.
  rewrite (existsb_ext_in _ _ _ _ F), (filter_ext_in _ _ _ F).
  rewrite (filter_ext_in (fun s => negb (is_a_wall s && meets xl xr v s)) (fun s => negb (is_a_wall s && spans v s))) by (intros s I; rewrite F by auto; reflexivity).
  reflexivity.
Qed.

Lemma x_at_between : forall v (s : seg RA) a b, spans v s = true -> a <= px (si s) <= b -> a <= px (sj s) <= b -> a <= x_at v s <= b.
Proof.
  intros v s a b H A B. apply spans_true in H. unfold x_at. set (t := (v - py (si s)) / (py (sj s) - py (si s))).
  assert (T : 0 <= t <= 1).
  { unfold t. destruct H as [H|H].
    - split; [apply Rmult_le_pos; [lra|apply Rlt_le, Rinv_0_lt_compat; lra]|]. apply (Rmult_le_reg_r (py (sj s) - py (si s))); [lra|]. field_simplify; lra.
    - replace ((v - py (si s)) / (py (sj s) - py (si s))) with ((py (si s) - v) / (py (si s) - py (sj s))) by (field; lra).
      split; [apply Rmult_le_pos; [lra|apply Rlt_le, Rinv_0_lt_compat; lra]|]. apply (Rmult_le_reg_r (py (si s) - py (sj s))); [lra|]. field_simplify; lra. }
  nra.
Qed.

(*@ C55_split_height *)
(** Cutting at a height: heads are left alone; otherwise the walls spanning the height are replaced, in place of each come its
    two pieces at the end of the part, and the answer tells whether there was such a wall.  The walls must not all stand
    on one vertical line. *)
Lemma split_v_spec : forall (segs : list (seg RA)) (v : R), decimal8 v -> cuttable v segs ->
  (forall s, In s segs -> is_a_wall s = true -> Rabs (px (si s)) <= 10^11 /\ Rabs (px (sj s)) <= 10^11 /\ Rabs (py (si s)) <= 10^11 /\ Rabs (py (sj s)) <= 10^11) ->
  (exists p q, In p (flat_map (fun s => [si s; sj s]) (filter is_a_wall segs)) /\ In q (flat_map (fun s => [si s; sj s]) (filter is_a_wall segs)) /\ px p + 1 / 10^4 <= px q) ->
  split_v false segs v = Ok (existsb (fun s => is_a_wall s && spans v s) segs, after_cut v segs) /\
  split_v true segs v = Ok (false, segs).
Proof.
  intros segs v DV CU BIG (p & q & Ip & Iq & W). split; [|reflexivity]. unfold split_v, v_cutter. rewrite walls_of.
  destruct (bounding_box (filter is_a_wall segs)) as [[x0 x1] [y0 y1]] eqn:E.
  assert (NE : filter is_a_wall segs <> []) by (intros N; rewrite N in Ip; destruct Ip).
  destruct (fun R => bounding_box_exact _ x0 x1 y0 y1 NE R E) as (C & _).
  { intros w Iw. apply in_flat_map in Iw as (s & Is & Iw). apply filter_In in Is as [Is1 Is2]. destruct (BIG s Is1 Is2) as (B1 & B2 & B3 & B4).
    destruct Iw as [<-|[<-|[]]]; auto. }
  pose proof (C p Ip) as Cp. pose proof (C q Iq) as Cq. cbv zeta.
  assert (MN : nmin (A := RA) x0 x1 = x0) by (unfold nmin; ra_simpl; rewrite (proj2 (Rltb_false x1 x0)) by lra; reflexivity).
  assert (MX : nmax (A := RA) x0 x1 = x1) by (unfold nmax; ra_simpl; rewrite (proj2 (Rltb_true x0 x1)) by lra; reflexivity).
  rewrite MN, MX. unfold ndec. ra_simpl. rewrite (Rabs_pos_eq (x1 - x0)) by lra.
  set (xl := x0 - 1 / 2 * (x1 - x0)). set (xr := x1 + 1 / 2 * (x1 - x0)).
  assert (PV : forall x : R, Point_new (A := RA) x v = @mkpt RA (Rround8 x) v) by (intros x; unfold Point_new; ra_simpl; f_equal; apply Rround8_id, decimal8_grid; exact DV).
  rewrite !PV. unfold LineSegment. rewrite split_by_spec; auto.
  pose proof (Rround8_err xl) as E1. pose proof (Rround8_err xr) as E2. apply Rabs_le_inv in E1, E2. unfold xl, xr in *.
  split; [lra|]. intros s Is Ws Sp.
  assert (I1 : In (si s) (flat_map ij (filter is_a_wall segs))) by (apply in_flat_map; exists s; split; [apply filter_In; auto|left; auto]).
  assert (I2 : In (sj s) (flat_map ij (filter is_a_wall segs))) by (apply in_flat_map; exists s; split; [apply filter_In; auto|right; left; auto]).
  pose proof (x_at_between v s x0 x1 Sp (proj1 (C _ I1)) (proj1 (C _ I2))). lra.
Qed.

(** ** Cutting with a RaumEnde *)
Lemma ring_pts : forall c xl xr v C, decimal8 v -> xl < xr -> (forall s, In s C -> is_a_wall s = true /\ spans v s = true) ->
  let cl := @mkseg RA c (@mkpt RA xl v) (@mkpt RA xr v) in
  forall tl, foldM (fun pts c => ip <- intersection_point (fst c) (snd c) ;; match ip with Some p => Ok (insert1 p pts) | None => Err AttributeError end)
        (filter (fun c => seg_eqb (fst c) cl || seg_eqb (snd c) cl) (map (fun s => (cl, s)) C)) (@mkpt RA xl v :: tl) =
  Ok (@mkpt RA xl v :: rev (map (cut_point v) C) ++ tl).
Proof.
  intros c xl xr v C DV LR H cl. rewrite filter_all by (intros k I; apply in_map_iff in I as (s & <- & I); cbn [fst]; rewrite seg_eqb_refl; reflexivity).
  induction C as [|s C IH]; intros tl; [reflexivity|]. cbn [map foldM fst snd]. unfold cl at 1. rewrite (cutter_ip c xl xr v DV LR s) by (apply H; left; auto).
  cbn [bind insert1]. rewrite IH by (intros; apply H; right; auto). cbn [rev map]. rewrite <- app_assoc. reflexivity.
Qed.

(*@ C55_split_with *)
(** Cutting with a horizontal RaumEnde that reaches beyond every wall it meets: the part is cut as at its height.  Kept, the RaumEnde
    does not change.  Not kept, and meeting exactly two walls (first a, then b), it becomes a ring: wall up to the cut of b,
    opening between the cuts, wall from the cut of a on. *)
Lemma split_ht_spec : forall (segs : list (seg RA)) (xl xr v : R), decimal8 v -> cuttable v segs -> reaches xl xr v segs ->
  let cl := @mkseg RA CWall (@mkpt RA xl v) (@mkpt RA xr v) in
  let cutwalls := filter (fun s => is_a_wall s && spans v s) segs in
  split_ht false segs cl true = mksr (after_cut v segs) [cl] (Ok (existsb (fun s => is_a_wall s && spans v s) segs)) /\
  (cutwalls = [] -> split_ht false segs cl false = mksr segs [cl] (Ok false)) /\
  (forall a b, cutwalls = [a; b] ->
    split_ht false segs cl false = mksr (after_cut v segs)
      [@mkseg RA CWall (@mkpt RA xl v) (cut_point v b); @mkseg RA CNonWall (cut_point v b) (cut_point v a); @mkseg RA CWall (cut_point v a) (@mkpt RA xr v)] (Ok true)).
Proof.
  intros segs xl xr v DV CU RE cl cutwalls. pose proof (split_by_spec CWall xl xr v segs DV CU RE) as SB. cbv zeta in SB. fold cl in SB. fold cutwalls in SB.
  assert (EX : existsb (fun s => is_a_wall s && spans v s) segs = false -> after_cut v segs = segs).
  { intros X. assert (N : forall s, In s segs -> is_a_wall s && spans v s = false).
    { intros s I. apply not_true_is_false. intros T. assert (existsb (fun s => is_a_wall s && spans v s) segs = true) by (apply existsb_exists; eauto). congruence. }
    unfold after_cut. rewrite filter_all by (intros s I; rewrite N by auto; reflexivity). rewrite filter_none by auto. apply app_nil_r. }
  unfold split_ht. rewrite SB. split; [|split].
  - destruct (existsb _ segs) eqn:X; [reflexivity|]. rewrite EX by auto. reflexivity.
  - intros Z. assert (X : existsb (fun s => is_a_wall s && spans v s) segs = false).
    { apply not_true_is_false. intros T. apply existsb_exists in T as (s & I & T). assert (In s cutwalls) by (apply filter_In; auto). rewrite Z in H. destruct H. }
    rewrite X. reflexivity.
  - intros a b Z. assert (IN : forall s, In s [a; b] -> In s segs /\ is_a_wall s && spans v s = true) by (intros s I; rewrite <- Z in I; apply filter_In in I; exact I).
    assert (X : existsb (fun s => is_a_wall s && spans v s) segs = true) by (apply existsb_exists; exists a; apply IN; left; auto).
    rewrite X, Z. unfold ring.
    pose proof (ring_pts CWall xl xr v [a; b] DV (proj1 RE) ltac:(intros s I; apply andb_true_iff; apply IN; auto) [@mkpt RA xr v]) as RP. cbv zeta in RP. fold cl in RP.
    change (ij cl) with [@mkpt RA xl v; @mkpt RA xr v]. rewrite RP. reflexivity.
Qed.

(*@ C55_one_wall_refuted *)
(** Meeting exactly one wall, the RaumEnde cannot become a ring: the call raises IndexError, but the part has been cut already. *)
Lemma split_ht_one : forall (segs : list (seg RA)) (xl xr v : R) a, decimal8 v -> cuttable v segs -> reaches xl xr v segs ->
  filter (fun s => is_a_wall s && spans v s) segs = [a] ->
  let cl := @mkseg RA CWall (@mkpt RA xl v) (@mkpt RA xr v) in
  split_ht false segs cl false = mksr (after_cut v segs) [cl] (Err IndexError) /\ ~ In a (after_cut v segs).
Proof.
  intros segs xl xr v a DV CU RE Z cl. pose proof (split_by_spec CWall xl xr v segs DV CU RE) as SB. cbv zeta in SB. fold cl in SB.
  assert (IN : forall s, In s [a] -> In s segs /\ is_a_wall s && spans v s = true) by (intros s I; rewrite <- Z in I; apply filter_In in I; exact I).
  assert (X : existsb (fun s => is_a_wall s && spans v s) segs = true) by (apply existsb_exists; exists a; apply IN; left; auto).
  split.
  - unfold split_ht. rewrite SB, X, Z. unfold ring.
    pose proof (ring_pts CWall xl xr v [a] DV (proj1 RE) ltac:(intros s I; apply andb_true_iff; apply IN; auto) [@mkpt RA xr v]) as RP. cbv zeta in RP. fold cl in RP.
    change (ij cl) with [@mkpt RA xl v; @mkpt RA xr v]. rewrite RP. reflexivity.
  - destruct (IN a (or_introl eq_refl)) as [Ia Wa]. unfold after_cut. rewrite Z. intros I. apply in_app_iff in I as [I|I].
    + apply filter_In in I as [_ I]. rewrite Wa in I. discriminate.
    + destruct CU as (_ & _ & _ & CL). apply andb_true_iff in Wa as [W1 W2]. destruct (CL a Ia W1) as [C1 C2].
      assert (V0 : Rabs (v - v) = 0) by (rewrite Rminus_eq_0; apply Rabs_R0).
      destruct I as [I|[I|[]]].
      * assert (E : py (sj a) = v) by (rewrite <- I; reflexivity). rewrite E, V0 in C2. lra.
      * assert (E : py (si a) = v) by (rewrite <- I; reflexivity). rewrite E, V0 in C1. lra.
Qed.

(*@ex C55_example *)
(** A cylinder of diameter 2 and height 4, cut at height 1. *)
Example split_example : let i a b := @mkpt RA a b in
  split_v false (mantel_segments (A := RA) 0 0 2 2 4) 1 =
  Ok (true, [NonWall (i 1 4) (i (-1) 4); NonWall (i (-1) 0) (i 1 0);
             Wall (i 1 0) (i 1 1); Wall (i 1 1) (i 1 4); Wall (i (-1) 4) (i (-1) 1); Wall (i (-1) 1) (i (-1) 0)]).
Proof.
  cbv zeta. assert (GZ : forall n, on_grid (IZR n)) by apply grid_IZR.
  set (l := [Wall (@mkpt RA 1 0) (@mkpt RA 1 4); NonWall (@mkpt RA 1 4) (@mkpt RA (-1) 4); Wall (@mkpt RA (-1) 4) (@mkpt RA (-1) 0); NonWall (@mkpt RA (-1) 0) (@mkpt RA 1 0)]).
  assert (M : mantel_segments (A := RA) 0 0 2 2 4 = l).
  { unfold mantel_segments, l, n2, Point_new. ra_simpl. replace (0 + 2 / 2) with 1 by lra. replace (0 - 2 / 2) with (-1) by lra. replace (0 + 4) with 4 by lra.
    rewrite !(Rround8_id _ (GZ _)). reflexivity. }
  rewrite M. assert (D1 : decimal8 1) by (exists 100000000%Z; lra).
  assert (ST : forall a b : Z, stored (@mkpt RA (IZR a) (IZR b))) by (intros a b; apply stored_grid; split; apply GZ).
  assert (CU : cuttable 1 l).
  { split; [|split; [|split]].
    - intros s [<-|[<-|[<-|[<-|[]]]]]; split; apply ST.
    - repeat (apply FOP_cons || apply Forall_cons || apply FOP_nil || apply Forall_nil); try (left; discriminate); right; left; intros [C1 C2]; cbn in C1, C2; apply Rabs_def2 in C1, C2; lra.
    - cbn [filter is_a_wall l sc Wall NonWall]. repeat (apply FOP_cons || apply Forall_cons || apply FOP_nil || apply Forall_nil). right. intros q q' (t & T & Q) (u & U & Q').
      assert (X : 2 <= Rabs (px q - px q')) by (rewrite Q, Q'; unfold along; cbn; ra_simpl; rewrite Rabs_pos_eq; lra).
      assert (2 <= dist q q'). { eapply Rle_trans; [exact X|]. unfold dist. rewrite <- sqrt_Rsqr_abs. apply sqrt_le_1_alt. unfold Rsqr. pose proof (pow2_ge_0 (py q - py q')). lra. }
      lra.
    - intros s [<-|[<-|[<-|[<-|[]]]]]; intros; try discriminate; split; cbn; unfold Rabs; destruct (Rcase_abs _); lra. }
  destruct (split_v_spec l 1 D1 CU) as [-> _].
  - intros s [<-|[<-|[<-|[<-|[]]]]]; intros; try discriminate; cbn; repeat split; apply Rabs_le; lra.
  - exists (@mkpt RA (-1) 4), (@mkpt RA 1 0). cbn. split; [auto|]. split; [auto|]. lra.
  - assert (S1 : spans 1 (Wall (@mkpt RA 1 0) (@mkpt RA 1 4)) = true) by (apply spans_true; cbn; lra).
    assert (S2 : spans 1 (Wall (@mkpt RA (-1) 4) (@mkpt RA (-1) 0)) = true) by (apply spans_true; cbn; lra).
    unfold after_cut, l. cbn [filter existsb is_a_wall sc Wall NonWall andb negb orb]. rewrite S1, S2. cbn [negb orb app flat_map halves].
    unfold halves, cut_point, x_at. cbn [si sj sc px py Wall NonWall].
    replace (1 + (1 - 0) / (4 - 0) * (1 - 1)) with 1 by field. replace (-1 + (1 - 4) / (0 - 4) * (-1 - -1)) with (-1) by field. rewrite !(Rround8_id _ (GZ _)). reflexivity.
Qed.
