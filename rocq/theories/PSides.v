(** What raum_intex reports for a standing vessel. *)
From Coq Require Import String Reals ZArith Lra Lia Bool List Psatz Permutation Arith.
From Verif Require Import Base Arith ArithR ArithF MPoint MLine MPoly MHeap MVessel MContain MIntex MRaum
  Spec SpecGroup SpecLoops SpecRing SpecHeap SpecIntex SpecStack SpecSides PPoint PLine PConvex PStack.
From Verif Require PIntex PHeap PVessel PRaum SpecInside.
Import SpecInside(right_of_row, even_odd, polygon_of).
Import ListNotations.
Local Open Scope list_scope.
Local Open Scope R_scope.
#[local] Existing Instance RA.

(** ** Counting the walls to the right *)
Definition hit (p : pt RA) (s : seg RA) : bool := right_of_row p (si s) (sj s).
Definition hits (p : pt RA) (g : list (seg RA)) : nat := length (filter (hit p) g).
Lemma hits_app : forall p g h, hits p (g ++ h) = (hits p g + hits p h)%nat.
Proof. intros p g h. unfold hits. rewrite filter_app, app_length. reflexivity. Qed.
Lemma hits_perm : forall p g h, Permutation g h -> hits p g = hits p h.
Proof.
  intros p g h H. unfold hits. induction H; simpl; auto.
  - destruct (hit p x); simpl; auto.
  - destruct (hit p x), (hit p y); simpl; auto.
  - congruence.
Qed.
Lemma row_swap : forall p a b, right_of_row p a b = right_of_row p b a.
Proof.
  intros p a b. unfold right_of_row. assert (E : orient b a p = - orient a b p) by (unfold orient; ring).
  destruct (Rle_lt_dec (py a) (py p)), (Rle_lt_dec (py b) (py p)); auto; destruct (Rlt_dec 0 (orient a b p)), (Rlt_dec (orient a b p) 0), (Rlt_dec 0 (orient b a p)), (Rlt_dec (orient b a p) 0); auto; lra.
Qed.
Lemma hits_cycle : forall vs g p, polygon_of vs g -> even_odd vs p = Nat.odd (hits p g).
Proof.
  intros vs g p (l' & P & F). unfold even_odd. rewrite (hits_perm p _ _ P). f_equal. unfold hits. clear P.
  induction F as [|e s es ss J F IH]; simpl; auto.
  assert (E : right_of_row p (fst e) (snd e) = hit p s) by (unfold hit; destruct J as [[-> ->]|[-> ->]]; auto using row_swap).
  rewrite E. destruct (hit p s); simpl; rewrite IH; reflexivity.
Qed.
Lemma miss_up : forall p s, (forall q, In q (ij s) -> py p < py q) -> hit p s = false.
Proof.
  intros p s H. unfold hit, right_of_row. pose proof (H (si s) (or_introl eq_refl)). pose proof (H (sj s) (or_intror (or_introl eq_refl))).
  destruct (Rle_lt_dec (py (si s)) (py p)), (Rle_lt_dec (py (sj s)) (py p)); auto; lra.
Qed.
Lemma miss_down : forall p s, (forall q, In q (ij s) -> py q <= py p) -> hit p s = false.
Proof.
  intros p s H. unfold hit, right_of_row. pose proof (H (si s) (or_introl eq_refl)). pose proof (H (sj s) (or_intror (or_introl eq_refl))).
  destruct (Rle_lt_dec (py (si s)) (py p)), (Rle_lt_dec (py (sj s)) (py p)); auto; lra.
Qed.
Lemma hits_none : forall p g, (forall s, In s g -> hit p s = false) -> hits p g = 0%nat.
Proof. intros p g H. unfold hits. induction g as [|s g IH]; simpl; auto. rewrite (H s (or_introl eq_refl)). apply IH. intros; apply H; right; auto. Qed.
Lemma hit_level : forall p a b, py a <= py p < py b -> forall s, (forall q, In q (ij s) <-> q = a \/ q = b) ->
  hit p s = if Rlt_dec 0 (orient a b p) then true else false.
Proof.
  intros p a b H s I. unfold hit.
  assert (E : right_of_row p (si s) (sj s) = right_of_row p a b).
  { assert (A1 := proj1 (I (si s)) (or_introl eq_refl)). assert (A2 := proj1 (I (sj s)) (or_intror (or_introl eq_refl))).
    assert (B1 := proj2 (I a) (or_introl eq_refl)). assert (B2 := proj2 (I b) (or_intror eq_refl)).
    destruct A1 as [A1|A1], A2 as [A2|A2]; rewrite A1, A2; auto using row_swap; exfalso; destruct B1 as [B1|[B1|[]]], B2 as [B2|[B2|[]]]; assert (Q : a = b) by congruence; rewrite Q in H; lra. }
  rewrite E. unfold right_of_row. destruct (Rle_lt_dec (py a) (py p)), (Rle_lt_dec (py b) (py p)); auto; lra.
Qed.

(** ** The walls of the sides *)
Lemma hits_side : forall p x0 r l a u v, rising a l -> In (u, v) (pairs (a :: l)) -> fst u <= py p < fst v ->
  hits p (side x0 r a l) = if Rlt_dec 0 (orient (corner x0 r u) (corner x0 r v) p) then 1%nat else 0%nat.
Proof.
  intros p x0 r l. induction l as [|b l IH]; intros a u v RI I H; [destruct I|]. destruct RI as [R1 R2].
  cbn [side]. change (hits p (side_wall x0 r a b :: side x0 r b l)) with (hits p ([side_wall x0 r a b] ++ side x0 r b l)). rewrite hits_app.
  change (In (u, v) ((a, b) :: pairs (b :: l))) in I. destruct I as [E|I].
  - injection E as -> ->. rewrite (hits_none p (side x0 r v l)).
    2:{ intros s S0. apply miss_up. intros q Q. destruct (side_ends x0 r l v s q S0 Q) as (w & W & ->). cbn [corner py]. pose proof (rising_from l v w R2 W). lra. }
    rewrite Nat.add_0_r. unfold hits. cbn [filter]. rewrite (hit_level p (corner x0 r u) (corner x0 r v)); [|cbn [corner py]; lra|intros q; apply side_wall_ends].
    destruct (Rlt_dec _ _); reflexivity.
  - assert (U : In u (b :: l)).
    { apply In_nth_error in I as [k I]. apply pairs_nth in I as [I _]. eapply nth_error_In; eauto. }
    pose proof (rising_from l b u R2 U). rewrite (IH b u v R2 I H). replace (hits p [side_wall x0 r a b]) with 0%nat; [reflexivity|]. symmetry. apply hits_none.
    intros s [<-|[]]. apply miss_down. intros q Q. apply side_wall_ends in Q. destruct Q as [->| ->]; cbn [corner py]; lra.
Qed.
Lemma side_above : forall p x0 r l a, rising a l -> py p < fst a -> hits p (side x0 r a l) = 0%nat.
Proof.
  intros p x0 r l a RI H. apply hits_none. intros s S0. apply miss_up. intros q Q. destruct (side_ends x0 r l a s q S0 Q) as (w & W & ->).
  cbn [corner py]. pose proof (rising_from l a w RI W). lra.
Qed.
Lemma side_beneath : forall p x0 r l a, rising a l -> fst (last l a) <= py p -> hits p (side x0 r a l) = 0%nat.
Proof.
  intros p x0 r l a RI H. apply hits_none. intros s S0. apply miss_down. intros q Q. destruct (side_ends x0 r l a s q S0 Q) as (w & W & ->).
  cbn [corner py]. pose proof (rising_last l a w RI W). lra.
Qed.

(** ** Between two levels *)
Lemma orient_corner : forall x0 r u v p, orient (corner x0 r u) (corner x0 r v) p =
  sg r * (snd v / 2 - snd u / 2) * (py p - fst u) - (fst v - fst u) * (px p - x0 - sg r * (snd u / 2)).
Proof. intros. unfold orient, corner. cbn [px py]. ring. Qed.
Lemma between : forall (w0 w1 h x y : R), 0 < w0 -> 0 < w1 -> 0 < y < h ->
  (w1 - w0) * y - h * (x - w0) <= 0 -> 0 < (w1 - w0) * y + h * (x + w0).
Proof.
  intros w0 w1 h x y W0 W1 Y H. assert (0 < w0 * (h - y)) by (apply Rmult_lt_0_compat; lra). assert (0 < w1 * y) by (apply Rmult_lt_0_compat; lra). lra.
Qed.
Lemma between' : forall (w0 w1 h x y : R), 0 < w0 -> 0 < w1 -> 0 < y < h ->
  (w1 - w0) * y + h * (x + w0) <= 0 -> 0 < (w1 - w0) * y - h * (x - w0).
Proof.
  intros w0 w1 h x y W0 W1 Y H. assert (0 < w0 * (h - y)) by (apply Rmult_lt_0_compat; lra). assert (0 < w1 * y) by (apply Rmult_lt_0_compat; lra). lra.
Qed.
Lemma trap_in : forall X Y w0 w1 h p, 0 < w0 -> 0 < w1 -> strictly_in (PIntex.trap X Y w0 w1 h) p ->
  0 < py p - Y < h /\ 0 < (w1 - w0) * (py p - Y) - h * (px p - X - w0) /\ 0 < (w1 - w0) * (py p - Y) + h * (px p - X + w0).
Proof.
  intros X Y w0 w1 h p W0 W1 H. unfold strictly_in, PIntex.trap in H. cbn [In] in H.
  pose proof (H _ (or_introl eq_refl)) as H1. pose proof (H _ (or_intror (or_introl eq_refl))) as H2. pose proof (H _ (or_intror (or_intror (or_introl eq_refl)))) as H3.
  pose proof (H _ (or_intror (or_intror (or_intror (or_introl eq_refl))))) as H4. clear H.
  unfold orient, Wall, NonWall in *. cbn [si sj px py] in *. ra_simpl. set (x := px p - X). set (y := py p - Y).
  assert (K1 : 0 < (w1 - w0) * y - h * (x - w0)) by (unfold x, y; lra). assert (K2 : 0 < 2 * (w1 * (h - y))) by (unfold y; lra).
  assert (K3 : 0 < (w1 - w0) * y + h * (x + w0)) by (unfold x, y; lra). assert (K4 : 0 < 2 * (w0 * y)) by (unfold y; lra).
  clearbody x y. clear H1 H2 H3 H4. split; [|split; auto]. split.
  - apply (Rmult_lt_reg_l w0); lra.
  - assert (0 < h - y); [|lra]. apply (Rmult_lt_reg_l w1); lra.
Qed.
Lemma trap_out : forall X Y w0 w1 h p, 0 < w0 -> 0 < w1 -> 0 < h -> beside_it (PIntex.trap X Y w0 w1 h) p ->
  0 < py p - Y < h /\ ((w1 - w0) * (py p - Y) - h * (px p - X - w0) < 0 \/ (w1 - w0) * (py p - Y) + h * (px p - X + w0) < 0).
Proof.
  intros X Y w0 w1 h p W0 W1 PH ((s & I & O) & (s1 & I1 & L1) & (s2 & I2 & L2)).
  assert (Y1 : 0 < py p - Y < h).
  { unfold PIntex.trap in I1, I2. cbn [In] in I1, I2. split.
    - destruct I1 as [<-|[<-|[<-|[<-|[]]]]]; cbn in L1; lra.
    - destruct I2 as [<-|[<-|[<-|[<-|[]]]]]; cbn in L2; lra. }
  split; auto. clear I1 L1 I2 L2. unfold PIntex.trap in I. cbn [In] in I.
  assert (K2 : 0 < 2 * (w1 * (h - (py p - Y)))) by (apply Rmult_lt_0_compat; [lra|]; apply Rmult_lt_0_compat; lra).
  assert (K4 : 0 < 2 * (w0 * (py p - Y))) by (apply Rmult_lt_0_compat; [lra|]; apply Rmult_lt_0_compat; lra).
  destruct I as [<-|[<-|[<-|[<-|[]]]]]; unfold orient, Wall, NonWall in O; cbn [si sj px py] in O; ra_simpl; [left|exfalso|right|exfalso]; lra.
Qed.

(** ** The ends *)
Lemma end_far : forall x0 k (up : bool) (u : level) p, decimal8 x0 -> decimal8 (fst u) -> decimal8 (snd u / 2) -> 1 / 10^5 <= snd u ->
  (if up then py p < fst u else fst u <= py p) -> hits p (closed_by x0 k up u) = 0%nat.
Proof.
  intros x0 k up u p D0 D1 D2 P H. destruct (closing_spec x0 k up u D0 D1 D2 P) as (ms & ws & E & PW & _). rewrite <- (hits_perm p _ _ PW).
  apply hits_none. intros s I. destruct up; [apply miss_up|apply miss_down]; intros q Q; pose proof (ep_side _ _ _ _ _ E s q I Q) as B; cbn [beyond] in B; lra.
Qed.
Lemma flat_far : forall x0 (up : bool) (u : level) p, decimal8 x0 -> decimal8 (fst u) -> decimal8 (snd u / 2) -> py p <> fst u ->
  hits p (closed_by x0 Flat up u) = 0%nat.
Proof.
  intros x0 up u p D0 D1 D2 H. rewrite flat_eq by auto. apply hits_none. intros s [<-|[]].
  destruct (Rle_lt_dec (fst u) (py p)); [apply miss_down|apply miss_up]; intros q [<-|[<-|[]]]; cbn [Wall si sj corner py]; lra.
Qed.
(** The apex of a head. *)
Lemma dome_apex : forall x0 (up : bool) (u : level), decimal8 x0 -> decimal8 (fst u) -> decimal8 (snd u / 2) ->
  exists H, closed_by x0 Dome up u = [Wall (corner x0 false u) (@mkpt RA x0 (fst u + sg up * H)); Wall (@mkpt RA x0 (fst u + sg up * H)) (corner x0 true u)] /\
    Rabs (H - Rmax (1 / 10) (snd u / 1000)) <= 5 / 10^9.
Proof.
  intros x0 up [y d] D0 D1 D2. cbn [fst snd] in *. unfold closed_by, head_graph. cbn [fst snd].
  set (hg := Rmax (1 / 10) (d / 1000)). assert (HG : h_graph (A := RA) d = hg) by (unfold h_graph; rewrite nmax_R; reflexivity). rewrite HG.
  exists (sg up * (Rround8 (y + sg up * hg) - y)). split.
  - replace (corner x0 false (y, d)) with (Point_new (A := RA) (- d / 2 + x0) y); [replace (corner x0 true (y, d)) with (Point_new (A := RA) (d / 2 + x0) y)|].
    + replace (@mkpt RA x0 (y + sg up * (sg up * (Rround8 (y + sg up * hg) - y)))) with (Point_new (A := RA) x0 (y + sg up * hg)).
      * destruct up; reflexivity.
      * unfold Point_new. change (@nround8 RA) with Rround8. rewrite (round_fix x0) by auto. f_equal. destruct up; unfold sg; ring.
    + unfold Point_new, corner, sg; cbn; f_equal; rewrite round_fix; auto; try lra. apply dec_add; auto.
    + unfold Point_new, corner, sg; cbn; f_equal; rewrite round_fix; auto; try lra. replace (- d / 2 + x0) with (x0 + - (d / 2)) by lra. apply dec_add; auto. apply dec_opp. auto.
  - pose proof (Rround8_err (y + sg up * hg)) as E. replace (sg up * (Rround8 (y + sg up * hg) - y) - hg) with (sg up * (Rround8 (y + sg up * hg) - (y + sg up * hg))) by (destruct up; unfold sg; ring).
    rewrite Rabs_mult. replace (Rabs (sg up)) with 1 by (destruct up; unfold sg; [rewrite Rabs_pos_eq|rewrite Rabs_left]; lra). lra.
Qed.
(** Which walls of a head are to the right of a point beyond its base line. *)
Lemma dome_hits : forall x0 (up : bool) (u : level) H p, let T := @mkpt RA x0 (fst u + sg up * H) in 0 < H -> 0 < snd u ->
  let v := sg up * (py p - fst u) in let x := px p - x0 in let w := snd u / 2 in 0 < v ->
  hits p [Wall (corner x0 false u) T; Wall T (corner x0 true u)] =
    if Rlt_dec v H then ((if Rlt_dec (H * (w + x)) (w * v) then 1 else 0) + (if Rlt_dec (w * v) (H * (w - x)) then 1 else 0))%nat
    else hits p [Wall (corner x0 false u) T; Wall T (corner x0 true u)].
Proof.
  intros x0 up u H p T PH PD v x w V. destruct (Rlt_dec v H) as [L|L]; [|reflexivity].
  change [Wall (corner x0 false u) T; Wall T (corner x0 true u)] with ([Wall (corner x0 false u) T] ++ [Wall T (corner x0 true u)]). rewrite hits_app.
  assert (ONE : forall s b, hit p s = b -> hits p [s] = if b then 1%nat else 0%nat) by (intros s b <-; unfold hits; cbn [filter]; destruct (hit p s); reflexivity).
  assert (DEC : forall A B : R, (A < 0 <-> B < 0) -> (A > 0 <-> B > 0) -> True) by auto.
  destruct up; unfold sg in *.
  - rewrite (ONE _ _ (hit_level p (corner x0 false u) T ltac:(unfold T; cbn [corner py]; unfold v in *; lra) (Wall (corner x0 false u) T) ltac:(intros q; cbn [ij Wall si sj In]; intuition))).
    rewrite (ONE _ _ (hit_level p (corner x0 true u) T ltac:(unfold T; cbn [corner py]; unfold v in *; lra) (Wall T (corner x0 true u)) ltac:(intros q; cbn [ij Wall si sj In]; intuition))).
    assert (E1 : orient (corner x0 false u) T p = w * v - H * (w + x)) by (unfold orient, T, corner, sg, w, x, v; cbn [px py]; field).
    assert (E2 : orient (corner x0 true u) T p = H * (w - x) - w * v) by (unfold orient, T, corner, sg, w, x, v; cbn [px py]; field).
    rewrite E1, E2. destruct (Rlt_dec 0 (w * v - H * (w + x))), (Rlt_dec (H * (w + x)) (w * v)), (Rlt_dec 0 (H * (w - x) - w * v)), (Rlt_dec (w * v) (H * (w - x))); try lra; reflexivity.
  - destruct (Rle_lt_dec (py T) (py p)) as [K|K]; [|exfalso; unfold T in K; cbn [py] in K; unfold v in *; lra].
    rewrite (ONE _ _ (hit_level p T (corner x0 false u) ltac:(unfold T; cbn [corner py]; unfold v in *; lra) (Wall (corner x0 false u) T) ltac:(intros q; cbn [ij Wall si sj In]; intuition))).
    rewrite (ONE _ _ (hit_level p T (corner x0 true u) ltac:(unfold T; cbn [corner py]; unfold v in *; lra) (Wall T (corner x0 true u)) ltac:(intros q; cbn [ij Wall si sj In]; intuition))).
    assert (E1 : orient T (corner x0 false u) p = w * v - H * (w + x)) by (unfold orient, T, corner, sg, w, x, v; cbn [px py]; field).
    assert (E2 : orient T (corner x0 true u) p = H * (w - x) - w * v) by (unfold orient, T, corner, sg, w, x, v; cbn [px py]; field).
    rewrite E1, E2. destruct (Rlt_dec 0 (w * v - H * (w + x))), (Rlt_dec (H * (w + x)) (w * v)), (Rlt_dec 0 (H * (w - x) - w * v)), (Rlt_dec (w * v) (H * (w - x))); try lra; reflexivity.
Qed.
Lemma roof_in : forall w hg H x v : R, 0 < w -> Rabs (H - hg) <= 5 / 10^9 -> 1 / 10 <= hg -> 0 < v < hg * (1 - Rabs x / w) - 1 / 1000 ->
  v < H /\ w * v < H * (w - x) /\ w * v < H * (w + x).
Proof.
  intros w hg H x v W E G V. apply PIntex.Rabs_le' in E. set (t := Rabs x / w) in *. assert (X : Rabs x = t * w) by (unfold t; field; lra).
  assert (T0 : 0 <= t) by (unfold t; apply Rmult_le_pos; [apply Rabs_pos|left; apply Rinv_0_lt_compat; lra]). clearbody t.
  assert (T1 : t < 1) by (apply Rnot_le_lt; intros L; assert (0 <= hg * (t - 1)) by (apply Rmult_le_pos; lra); lra).
  assert (B : - (5 / 10^9) <= (H - hg) * (1 - t)).
  { assert (0 <= (H - hg + 5 / 10^9) * (1 - t)) by (apply Rmult_le_pos; lra). assert (0 <= 5 / 10^9 * t) by (apply Rmult_le_pos; lra). lra. }
  assert (V2 : v < H * (1 - t)) by lra. assert (HP : 0 < H) by lra. assert (0 <= H * t) by (apply Rmult_le_pos; lra).
  split; [lra|]. assert (V3 : w * v < w * (H * (1 - t))) by (apply Rmult_lt_compat_l; lra).
  assert (XB : - (t * w) <= x <= t * w) by (rewrite <- X; split; [pose proof (Rle_abs (- x)); rewrite Rabs_Ropp in *; lra|apply Rle_abs]).
  assert (H * x <= H * (t * w)) by (apply Rmult_le_compat_l; lra). assert (H * - x <= H * (t * w)) by (apply Rmult_le_compat_l; lra). lra.
Qed.
Lemma roof_out : forall w hg H x v : R, 0 < w -> Rabs (H - hg) <= 5 / 10^9 -> 1 / 10 <= hg -> 0 < v -> hg * (1 - Rabs x / w) + 1 / 1000 < v ->
  0 < H /\ H * (w - Rabs x) < w * v.
Proof.
  intros w hg H x v W E G V O. apply PIntex.Rabs_le' in E. split; [lra|]. set (t := Rabs x / w) in *. assert (X : Rabs x = t * w) by (unfold t; field; lra).
  assert (T0 : 0 <= t) by (unfold t; apply Rmult_le_pos; [apply Rabs_pos|left; apply Rinv_0_lt_compat; lra]). clearbody t. rewrite X.
  assert (V2 : H * (1 - t) < v).
  { destruct (Rle_lt_dec t 1).
    - assert (0 <= (5 / 10^9 - (H - hg)) * (1 - t)) by (apply Rmult_le_pos; lra). assert (0 <= 5 / 10^9 * t) by (apply Rmult_le_pos; lra). lra.
    - assert (0 < H * (t - 1)) by (apply Rmult_lt_0_compat; lra). lra. }
  assert (V3 : w * (H * (1 - t)) < w * v) by (apply Rmult_lt_compat_l; lra). lra.
Qed.
Lemma dome_in : forall x0 (up : bool) (u : level) p, decimal8 x0 -> decimal8 (fst u) -> decimal8 (snd u / 2) -> 0 < snd u ->
  under_roof (fst u) x0 (snd u) (sg up) (Rmax (1 / 10) (snd u / 1000)) p -> hits p (closed_by x0 Dome up u) = 1%nat.
Proof.
  intros x0 up u p D0 D1 D2 P U. destruct (dome_apex x0 up u D0 D1 D2) as (H & -> & E). unfold under_roof in U.
  destruct (roof_in (snd u / 2) _ H (px p - x0) _ ltac:(lra) E (Rmax_l _ _) U) as (V1 & V2 & V3).
  rewrite dome_hits by lra. destruct (Rlt_dec _ _); [|lra]. destruct (Rlt_dec _ _); [lra|]. destruct (Rlt_dec _ _); [reflexivity|lra].
Qed.
Lemma dome_out : forall x0 (up : bool) (u : level) p, decimal8 x0 -> decimal8 (fst u) -> decimal8 (snd u / 2) -> 0 < snd u ->
  over_roof (fst u) x0 (snd u) (sg up) (Rmax (1 / 10) (snd u / 1000)) p -> Nat.odd (hits p (closed_by x0 Dome up u)) = false.
Proof.
  intros x0 up u p D0 D1 D2 P [U1 U2]. destruct (dome_apex x0 up u D0 D1 D2) as (H & -> & E).
  destruct (roof_out (snd u / 2) _ H (px p - x0) _ ltac:(lra) E (Rmax_l _ _) U1 U2) as (PH & V2).
  set (v := sg up * (py p - fst u)) in *. set (w := snd u / 2) in *. set (x := px p - x0) in *.
  destruct (Rlt_le_dec v H) as [L|L].
  - rewrite dome_hits; auto. fold v w x. destruct (Rlt_dec v H); [|lra].
    assert (W : w * v < w * H) by (apply Rmult_lt_compat_l; unfold w; lra).
    destruct (Rle_lt_dec 0 x).
    + rewrite (Rabs_pos_eq x) in V2 by auto. assert (0 <= H * x) by (apply Rmult_le_pos; lra).
      destruct (Rlt_dec (H * (w + x)) (w * v)); [lra|]. destruct (Rlt_dec (w * v) (H * (w - x))); [lra|]. reflexivity.
    + rewrite (Rabs_left x) in V2 by auto. assert (0 < H * - x) by (apply Rmult_lt_0_compat; lra).
      destruct (Rlt_dec (H * (w + x)) (w * v)); [|lra]. destruct (Rlt_dec (w * v) (H * (w - x))); [|lra]. reflexivity.
  - set (T := @mkpt RA x0 (fst u + sg up * H)). destruct up; unfold sg in v, T.
    + rewrite hits_none; [reflexivity|]. intros s [<-|[<-|[]]]; apply miss_down; intros q [<-|[<-|[]]]; unfold T; cbn [Wall si sj corner py]; unfold v in *; lra.
    + destruct (Rle_lt_dec v H) as [K|K].
      2:{ rewrite hits_none; [reflexivity|]. intros s [<-|[<-|[]]]; apply miss_up; intros q [<-|[<-|[]]]; unfold T; cbn [Wall si sj corner py]; unfold v in *; lra. }
      unfold hits. cbn [filter].
      rewrite (hit_level p T (corner x0 false u) ltac:(unfold T; cbn [corner py]; unfold v in *; lra) (Wall (corner x0 false u) T) ltac:(intros q; cbn [ij Wall si sj In]; intuition)).
      rewrite (hit_level p T (corner x0 true u) ltac:(unfold T; cbn [corner py]; unfold v in *; lra) (Wall T (corner x0 true u)) ltac:(intros q; cbn [ij Wall si sj In]; intuition)).
      assert (E0 : v = H) by lra. assert (E1 : py p - fst u = - H) by (unfold v in E0; lra).
      assert (E2 : orient T (corner x0 false u) p = - H * x) by (unfold orient, T, corner, sg, x; cbn [px py]; replace (py p) with (fst u - H) by lra; field).
      assert (E3 : orient T (corner x0 true u) p = - H * x) by (unfold orient, T, corner, sg, x; cbn [px py]; replace (py p) with (fst u - H) by lra; field).
      rewrite E2, E3. destruct (Rlt_dec 0 (- H * x)); reflexivity.
Qed.

(** ** Off the walls *)
Lemma along_xy : forall (a b p : pt RA) t, p = along a b t -> px p = (1 - t) * px a + t * px b /\ py p = (1 - t) * py a + t * py b.
Proof. intros a b p t ->. unfold along. cbn [px py]. ra_simpl. split; lra. Qed.
Lemma on_orient : forall (s : seg RA) p a b, (forall q, In q (ij s) <-> q = a \/ q = b) -> on_segment (si s) (sj s) p -> orient a b p = 0.
Proof.
  intros s p a b I (t & T & E). apply along_xy in E as [X Y].
  assert (A1 := proj1 (I (si s)) (or_introl eq_refl)). assert (A2 := proj1 (I (sj s)) (or_intror (or_introl eq_refl))).
  assert (B1 := proj2 (I a) (or_introl eq_refl)). assert (B2 := proj2 (I b) (or_intror eq_refl)).
  assert (K : (si s = a /\ sj s = b) \/ (si s = b /\ sj s = a) \/ a = b).
  { destruct A1 as [A1|A1], A2 as [A2|A2]; auto; right; right; destruct B1 as [B1|[B1|[]]], B2 as [B2|[B2|[]]]; congruence. }
  unfold orient. destruct K as [[E1 E2]|[[E1 E2]| ->]]; [rewrite X, Y, E1, E2; ring|rewrite X, Y, E1, E2; ring|ring].
Qed.
Lemma on_box : forall (s : seg RA) p y, on_segment (si s) (sj s) p -> ((forall q, In q (ij s) -> y <= py q) -> y <= py p) /\ ((forall q, In q (ij s) -> py q <= y) -> py p <= y).
Proof.
  intros s p y (t & T & E). apply along_xy in E as [X Y]. split; intros H; pose proof (H (si s) (or_introl eq_refl)) as H1; pose proof (H (sj s) (or_intror (or_introl eq_refl))) as H2; rewrite Y.
  - assert (0 <= (1 - t) * (py (si s) - y)) by (apply Rmult_le_pos; lra). assert (0 <= t * (py (sj s) - y)) by (apply Rmult_le_pos; lra). lra.
  - assert (0 <= (1 - t) * (y - py (si s))) by (apply Rmult_le_pos; lra). assert (0 <= t * (y - py (sj s))) by (apply Rmult_le_pos; lra). lra.
Qed.
Lemma off_app : forall g h p, off_walls (g ++ h) p <-> off_walls g p /\ off_walls h p.
Proof. intros g h p. unfold off_walls. split; [intros H; split; intros s I; apply H, in_app_iff; auto|]. intros [H1 H2] s I. apply in_app_iff in I as [I|I]; auto. Qed.
Lemma off_side : forall p x0 r l a u v, rising a l -> In (u, v) (pairs (a :: l)) -> fst u < py p < fst v -> orient (corner x0 r u) (corner x0 r v) p <> 0 ->
  off_walls (side x0 r a l) p.
Proof.
  intros p x0 r l. induction l as [|b l IH]; intros a u v RI I H O; [destruct I|]. destruct RI as [R1 R2].
  cbn [side]. change (off_walls ([side_wall x0 r a b] ++ side x0 r b l) p). apply off_app.
  change (In (u, v) ((a, b) :: pairs (b :: l))) in I. destruct I as [E|I].
  - injection E as -> ->. split.
    + intros s [<-|[]] W. apply O. apply (on_orient _ p (corner x0 r u) (corner x0 r v)) in W; auto. intros q. apply side_wall_ends.
    + intros s S0 W. apply (on_box s p (fst v)) in W as [W _]. assert (fst v <= py p); [|lra]. apply W.
      intros q Q. destruct (side_ends x0 r l v s q S0 Q) as (w & K & ->). cbn [corner py]. pose proof (rising_from l v w R2 K). lra.
  - assert (U : In u (b :: l)).
    { apply In_nth_error in I as [k I]. apply pairs_nth in I as [I _]. eapply nth_error_In; eauto. }
    pose proof (rising_from l b u R2 U). split; [|apply (IH b u v); auto].
    intros s [<-|[]] W. apply (on_box _ p (fst b)) in W as [_ W]. assert (py p <= fst b); [|lra]. apply W.
    intros q Q. apply side_wall_ends in Q. destruct Q as [->| ->]; cbn [corner py]; lra.
Qed.
Lemma off_side_far : forall p x0 r l a, rising a l -> py p < fst a \/ fst (last l a) < py p -> off_walls (side x0 r a l) p.
Proof.
  intros p x0 r l a RI H s S0 W. destruct H as [H|H].
  - apply (on_box _ p (fst a)) in W as [W _]. assert (fst a <= py p); [|lra]. apply W. intros q Q. destruct (side_ends x0 r l a s q S0 Q) as (w & K & ->). cbn [corner py]. pose proof (rising_from l a w RI K). lra.
  - apply (on_box _ p (fst (last l a))) in W as [_ W]. assert (py p <= fst (last l a)); [|lra]. apply W. intros q Q. destruct (side_ends x0 r l a s q S0 Q) as (w & K & ->). cbn [corner py]. pose proof (rising_last l a w RI K). lra.
Qed.
Lemma off_end : forall x0 k (up : bool) (u : level) p, decimal8 x0 -> decimal8 (fst u) -> decimal8 (snd u / 2) -> 1 / 10^5 <= snd u ->
  sg up * (py p - fst u) < 0 -> off_walls (closed_by x0 k up u) p.
Proof.
  intros x0 k up u p D0 D1 D2 P H s I W. destruct (closing_spec x0 k up u D0 D1 D2 P) as (ms & ws & E & PW & _). apply Permutation_in with (l' := ws) in I; [|apply Permutation_sym; auto].
  assert (B := fun q => ep_side _ _ _ _ _ E s q I). apply (on_box _ p (fst u)) in W as [W1 W2]. destruct up; unfold sg in H; cbn [beyond] in B.
  - assert (fst u <= py p); [|lra]. apply W1. intros q Q. specialize (B q Q). lra.
  - assert (py p <= fst u); [|lra]. apply W2. intros q Q. specialize (B q Q). lra.
Qed.
Lemma off_flat : forall x0 (up : bool) (u : level) p, decimal8 x0 -> decimal8 (fst u) -> decimal8 (snd u / 2) -> py p <> fst u -> off_walls (closed_by x0 Flat up u) p.
Proof.
  intros x0 up u p D0 D1 D2 H s I W. rewrite flat_eq in I by auto. destruct I as [<-|[]]. apply (on_box _ p (fst u)) in W as [W1 W2]. apply H. apply Rle_antisym; [apply W2|apply W1];
    intros q [<-|[<-|[]]]; cbn [Wall si sj corner py]; lra.
Qed.
Lemma off_dome : forall x0 (up : bool) (u : level) p, decimal8 x0 -> decimal8 (fst u) -> decimal8 (snd u / 2) -> 0 < snd u ->
  let hg := Rmax (1 / 10) (snd u / 1000) in under_roof (fst u) x0 (snd u) (sg up) hg p \/ over_roof (fst u) x0 (snd u) (sg up) hg p -> off_walls (closed_by x0 Dome up u) p.
Proof.
  intros x0 up u p D0 D1 D2 P hg U. destruct (dome_apex x0 up u D0 D1 D2) as (H & -> & E). fold hg in E.
  set (v := sg up * (py p - fst u)). set (w := snd u / 2). set (x := px p - x0).
  assert (K : w * v <> H * (w - Rabs x)).
  { destruct U as [U|[U1 U2]].
    - destruct (roof_in (snd u / 2) _ H (px p - x0) _ ltac:(lra) E (Rmax_l _ _) U) as (_ & V2 & V3). fold v w x in V2, V3. unfold Rabs. destruct (Rcase_abs x); lra.
    - destruct (roof_out (snd u / 2) _ H (px p - x0) _ ltac:(lra) E (Rmax_l _ _) U1 U2) as (_ & V2). fold v w x in V2. lra. }
  assert (V : v = sg up * (py p - fst u)) by reflexivity. clearbody v. intros s [<-|[<-|[]]] (t & T & E1); apply along_xy in E1 as [X Y]; apply K; cbn [Wall si sj corner px py] in X, Y; fold w in X.
  - assert (E1 : x = - (1 - t) * w) by (unfold x; rewrite X; unfold sg; ring). rewrite V, Y, E1, Rabs_left1; [destruct up; unfold sg; ring|].
    assert (0 <= (1 - t) * w) by (apply Rmult_le_pos; unfold w; lra). lra.
  - assert (E1 : x = t * w) by (unfold x; rewrite X; unfold sg; ring). rewrite V, Y, E1, Rabs_pos_eq; [destruct up; unfold sg; ring|]. apply Rmult_le_pos; unfold w; lra.
Qed.
Lemma off_perm : forall g h p, Permutation g h -> off_walls h p -> off_walls g p.
Proof. intros g h p P H s I. apply H. eapply Permutation_in; eauto. Qed.
Lemma off_split : forall x0 bot top a l g p, measured x0 (a :: l) -> Permutation g (concat (standing_parts x0 bot top a l)) ->
  off_walls (closed_by x0 bot false a) p -> off_walls (closed_by x0 top true (last l a)) p -> (forall r, off_walls (side x0 r a l) p) -> off_walls g p.
Proof.
  intros x0 bot top a l g p M H O1 O2 O3. apply (off_perm _ _ _ H). unfold standing_parts. cbn [concat]. apply off_app. split; auto. apply off_app. split; auto.
  apply (off_perm _ _ _ (shells_perm x0 l a M)). apply off_app. auto.
Qed.

(** ** The vessel *)
Lemma walls_split : forall x0 bot top a l g p, measured x0 (a :: l) -> Permutation g (concat (standing_parts x0 bot top a l)) ->
  hits p g = (hits p (closed_by x0 bot false a) + hits p (closed_by x0 top true (last l a)) + (hits p (side x0 true a l) + hits p (side x0 false a l)))%nat.
Proof.
  intros x0 bot top a l g p M H. rewrite (hits_perm p _ _ H). unfold standing_parts. cbn [concat]. rewrite !hits_app, (hits_perm p _ _ (shells_perm x0 l a M)), hits_app. lia.
Qed.
Section Sides.
Context (x0 : R) (bot top : closing) (a : level) (l : list level) (g : list (seg RA)).
Context (M : measured x0 (a :: l)) (RI : rising a l) (NE : l <> []) (G : Permutation g (concat (standing_parts x0 bot top a l))).
Let z := last l a.
Lemma fa : decimal8 x0 /\ decimal8 (fst a) /\ decimal8 (snd a / 2) /\ 1 / 10^5 <= snd a.
Proof. destruct M as [M0 M1]. split; auto. apply M1. left. auto. Qed.
Lemma fz : decimal8 x0 /\ decimal8 (fst z) /\ decimal8 (snd z / 2) /\ 1 / 10^5 <= snd z.
Proof. destruct M as [M0 M1]. split; auto. apply M1. apply last_in. Qed.
Lemma az : fst a < fst z.
Proof.
  unfold z. clear G M z g. destruct l as [|b l']; [congruence|]. destruct RI as [R1 R2]. rewrite last_cons. pose proof (rising_from l' b (last l' b) R2 (last_in _ l' b)). lra.
Qed.
Lemma band : forall u v p, In (u, v) (pairs (a :: l)) -> fst u < py p < fst v -> hits p g =
  ((if Rlt_dec 0 (orient (corner x0 true u) (corner x0 true v) p) then 1 else 0) + (if Rlt_dec 0 (orient (corner x0 false u) (corner x0 false v) p) then 1 else 0))%nat.
Proof.
  intros u v p I H. rewrite (walls_split x0 bot top a l g p M G), (hits_side p x0 true l a u v RI I), (hits_side p x0 false l a u v RI I) by lra.
  destruct fa as (D0 & D1 & D2 & D3), fz as (_ & E1 & E2 & E3).
  assert (U : In u (a :: l) /\ In v (a :: l)).
  { apply In_nth_error in I as [k I]. apply pairs_nth in I as [I1 I2]. split; eapply nth_error_In; eauto. }
  pose proof (rising_from l a u RI (proj1 U)). pose proof (rising_last l a v RI (proj2 U)).
  rewrite (end_far x0 bot false a p), (end_far x0 top true (last l a) p) by (auto; unfold z in *; lra). reflexivity.
Qed.
Lemma band_in : forall u v p, In (u, v) (pairs (a :: l)) -> 0 < snd u -> 0 < snd v -> fst u < fst v ->
  strictly_in (PIntex.trap x0 (fst u) (snd u / 2) (snd v / 2) (fst v - fst u)) p -> Nat.odd (hits p g) = true.
Proof.
  intros u v p I U V L H. apply trap_in in H; try lra. destruct H as (Y & H1 & H2). rewrite (band u v p I) by lra. rewrite !orient_corner. unfold sg.
  destruct (Rlt_dec _ _); [|lra]. destruct (Rlt_dec _ _); [lra|]. reflexivity.
Qed.
Lemma band_out : forall u v p, In (u, v) (pairs (a :: l)) -> 0 < snd u -> 0 < snd v -> fst u < fst v ->
  beside_it (PIntex.trap x0 (fst u) (snd u / 2) (snd v / 2) (fst v - fst u)) p -> Nat.odd (hits p g) = false.
Proof.
  intros u v p I U V L H. apply trap_out in H; try lra. destruct H as (Y & H). rewrite (band u v p I) by lra. rewrite !orient_corner. unfold sg.
  destruct H as [H|H].
  - pose proof (between (snd u / 2) (snd v / 2) (fst v - fst u) (px p - x0) (py p - fst u)). destruct (Rlt_dec _ _); [lra|]. destruct (Rlt_dec _ _); [lra|]. reflexivity.
  - pose proof (between' (snd u / 2) (snd v / 2) (fst v - fst u) (px p - x0) (py p - fst u)). destruct (Rlt_dec _ _); [|lra]. destruct (Rlt_dec _ _); [|lra]. reflexivity.
Qed.
Lemma beyond_end : forall (up : bool) p, 0 < sg up * (py p - fst (if up then z else a)) ->
  hits p g = hits p (closed_by x0 (if up then top else bot) up (if up then z else a)).
Proof.
  intros up p H. rewrite (walls_split x0 bot top a l g p M G). destruct fa as (D0 & D1 & D2 & D3), fz as (_ & E1 & E2 & E3). pose proof az as AZ. destruct up; unfold sg in H.
  - rewrite (side_beneath p x0 true l a RI), (side_beneath p x0 false l a RI), (end_far x0 bot false a p) by (auto; unfold z in *; lra). unfold z. lia.
  - rewrite (side_above p x0 true l a RI), (side_above p x0 false l a RI), (end_far x0 top true (last l a) p) by (auto; unfold z in *; lra). lia.
Qed.
Definition says (p : pt RA) (b : bool) : Prop := off_walls g p /\ Nat.odd (hits p g) = b.
Lemma off_band : forall u v p, In (u, v) (pairs (a :: l)) -> fst u < py p < fst v -> (forall r, orient (corner x0 r u) (corner x0 r v) p <> 0) -> off_walls g p.
Proof.
  intros u v p I H O. destruct fa as (D0 & D1 & D2 & D3), fz as (_ & E1 & E2 & E3).
  assert (U : In u (a :: l) /\ In v (a :: l)).
  { apply In_nth_error in I as [k I]. apply pairs_nth in I as [I1 I2]. split; eapply nth_error_In; eauto. }
  pose proof (rising_from l a u RI (proj1 U)). pose proof (rising_last l a v RI (proj2 U)).
  apply (off_split x0 bot top a l g p M G).
  - apply off_end; auto; unfold sg; lra.
  - apply off_end; auto; unfold sg; unfold z in *; lra.
  - intros r. apply (off_side p x0 r l a u v); auto.
Qed.
Lemma says_in : forall u v p, In (u, v) (pairs (a :: l)) -> 0 < snd u -> 0 < snd v -> fst u < fst v ->
  strictly_in (PIntex.trap x0 (fst u) (snd u / 2) (snd v / 2) (fst v - fst u)) p -> says p true.
Proof.
  intros u v p I U V L H. split; [|apply (band_in u v p); auto]. apply trap_in in H; try lra. destruct H as (Y & H1 & H2). apply (off_band u v); auto; [lra|].
  intros r. rewrite orient_corner. destruct r; unfold sg; lra.
Qed.
Lemma says_out : forall u v p, In (u, v) (pairs (a :: l)) -> 0 < snd u -> 0 < snd v -> fst u < fst v ->
  beside_it (PIntex.trap x0 (fst u) (snd u / 2) (snd v / 2) (fst v - fst u)) p -> says p false.
Proof.
  intros u v p I U V L H. split; [|apply (band_out u v p); auto]. apply trap_out in H; try lra. destruct H as (Y & H). apply (off_band u v); auto; [lra|].
  intros r. rewrite orient_corner. pose proof (between (snd u / 2) (snd v / 2) (fst v - fst u) (px p - x0) (py p - fst u)).
  pose proof (between' (snd u / 2) (snd v / 2) (fst v - fst u) (px p - x0) (py p - fst u)). destruct r; unfold sg; lra.
Qed.
Lemma off_beyond : forall (up : bool) p, 0 < sg up * (py p - fst (if up then z else a)) ->
  off_walls (closed_by x0 (if up then top else bot) up (if up then z else a)) p -> off_walls g p.
Proof.
  intros up p H O. destruct fa as (D0 & D1 & D2 & D3), fz as (_ & E1 & E2 & E3). pose proof az as AZ. apply (off_split x0 bot top a l g p M G).
  - destruct up; auto. apply off_end; auto. unfold sg in *. lra.
  - destruct up; auto. apply off_end; auto. unfold sg, z in *. lra.
  - intros r. apply off_side_far; auto. destruct up; unfold sg, z in *; [right|left]; lra.
Qed.
Lemma says_end : forall (up : bool) p, let u := if up then z else a in let k := if up then top else bot in
  match k with
  | Flat => 0 < sg up * (py p - fst u) -> says p false
  | Dome => let hg := Rmax (1 / 10) (snd u / 1000) in
    (under_roof (fst u) x0 (snd u) (sg up) hg p -> says p true) /\ (over_roof (fst u) x0 (snd u) (sg up) hg p -> says p false)
  end.
Proof.
  intros up p u k. assert (F : decimal8 x0 /\ decimal8 (fst u) /\ decimal8 (snd u / 2) /\ 1 / 10^5 <= snd u) by (unfold u; destruct up; [apply fz|apply fa]).
  destruct F as (D0 & D1 & D2 & D3). pose proof (beyond_end up p) as B. pose proof (off_beyond up p) as O. fold u k in B, O. destruct k.
  - intros H. split; [apply O; auto; apply off_flat; auto; intros E; rewrite E in H; lra|]. rewrite B by auto. rewrite flat_far; auto. intros E. rewrite E in H. lra.
  - intros hg. split; intros H.
    + assert (0 < sg up * (py p - fst u)) by (destruct H; auto). split; [apply O; auto; apply off_dome; auto; lra|]. rewrite B, dome_in by (auto; lra). reflexivity.
    + assert (0 < sg up * (py p - fst u)) by (destruct H; auto). split; [apply O; auto; apply off_dome; auto; lra|]. rewrite B by auto. apply dome_out; auto; lra.
Qed.
End Sides.

(** ** The points of the graphs *)
Record sided (q : pt RA -> bool -> Prop) (r : ipoly RA) : Prop := mk_sided {
  sd_some : ip_segs r <> []; sd_int : forall p s, In (p, s) (ip_int r) -> q p true; sd_has : ip_int r <> [];
  sd_ext : forall p s, In (p, s) (ip_ext r) -> q p false; sd_each : forall s, In s (ip_segs r) -> exists p, In (p, s) (ip_ext r);
  sd_ind : ip_ind r = [] }.
Record neutral (q : pt RA -> bool -> Prop) (r : ipoly RA) : Prop := mk_neutral {
  nt_int : ip_int r = []; nt_ext : ip_ext r = []; nt_out : exists p s, In s (ip_segs r) /\ In (p, s) (ip_ind r) /\ q p false }.
Lemma renew_const : forall (intex : nat -> res (pdict (A := RA))) d g rs, (forall k, intex k = Ok d) -> Forall2 (fun s x => row_of s d = Ok x) g rs ->
  let pts (f : probes RA -> list (pt RA)) := flat_map (fun '(s, x) => map (fun p : pt RA => (Point_new (A := RA) (px p) (py p), s)) (f x)) (combine g rs) in
  renew intex g = Ok (MContain.mkip g (pts (pr_internal (A := RA))) (pts (pr_indifferent (A := RA))) (pts (pr_external (A := RA)))).
Proof.
  intros intex d g rs C F pts. unfold renew, pts.
  assert (H : forall g0 k, add_intex_points intex k g g0 = Ok (MContain.mkip (ip_segs g0) (ip_int g0 ++ pts (pr_internal (A := RA))) (ip_ind g0 ++ pts (pr_indifferent (A := RA))) (ip_ext g0 ++ pts (pr_external (A := RA))))).
  { unfold pts. induction F as [|s x g rs E F IH]; intros g0 k.
    - cbn. rewrite !app_nil_r. destruct g0; reflexivity.
    - cbn [add_intex_points]. rewrite !C. cbn [bind]. rewrite E. cbn [bind]. rewrite IH. cbn [ip_segs ip_int ip_ind ip_ext combine flat_map]. rewrite <- !app_assoc. reflexivity. }
  rewrite H. reflexivity.
Qed.
Lemma same_refl : forall u : seg RA, seg_sameb u u = true.
Proof. intros u. unfold seg_sameb, pt_sameb. ra. destruct (sc u); cbn; rewrite ?(proj2 (Reqb_true _ _) eq_refl); reflexivity. Qed.
Lemma stored_new : forall p : pt RA, stored p -> Point_new (A := RA) (px p) (py p) = p.
Proof. intros p [G1 G2]. unfold Point_new. change (@nround8 RA) with Rround8. rewrite !Rround8_id by (apply PHeap.decimal8_grid; auto). destruct p; auto. Qed.
Section Graphs.
Context (x0 : R) (bot top : closing) (a : level) (l : list level) (g : list (seg RA)).
Context (M : measured x0 (a :: l)) (RI : rising a l) (NE : l <> []) (G : Permutation g (concat (standing_parts x0 bot top a l))).
Let z := last l a.
Context (inside : vpart -> nat -> nat -> nat -> nat -> pt RA -> res bool).
Lemma shell_sided : forall u v, In (u, v) (pairs (a :: l)) -> (forall k, right_answers (inside (Shell u v) k) (outline_of x0 u v)) ->
  fst u < fst v -> (let h := fst v - fst u in let steep := 1 + Rabs (snd v - snd u) / (2 * h) in steep <= 10^6 * h /\ steep <= 100 * snd u /\ steep <= 20000) ->
  exists r, graph_of x0 inside (Shell u v) = Ok r /\ sided (says g) r.
Proof.
  intros u v I RA' L (S1 & S2 & S3). assert (UV : In u (a :: l) /\ In v (a :: l)).
  { apply In_nth_error in I as [k K]. apply pairs_nth in K as [I1 I2]. split; eapply nth_error_In; eauto. }
  pose proof M as [M0 M1]. destruct (M1 u (proj1 UV)) as (U1 & U2 & U3). destruct (M1 v (proj2 UV)) as (V1 & V2 & V3).
  destruct (PIntex.mantel_graph (inside (Shell u v)) (fst u) x0 (snd u) (snd v) (fst v - fst u)) as (s & t & r & EW & ER & Q1 & Q2 & Q3 & Q4 & Q5 & Q6); auto; try lra.
  { replace (fst v - fst u) with (fst v + - fst u) by ring. apply dec_add; auto. apply dec_opp; auto. }
  exists r. split; [exact ER|]. rewrite PIntex.mantel_trap in Q5, Q6; auto; try (replace (fst v - fst u) with (fst v + - fst u) by ring; apply dec_add; auto; apply dec_opp; auto).
  rewrite Forall_forall in Q5, Q6.
  constructor.
  - rewrite Q1. discriminate.
  - intros p w K. apply (says_in x0 bot top a l g M RI G u v); auto; try lra. apply Q5. apply (in_map fst) in K. exact K.
  - intros K. rewrite K in Q2. discriminate.
  - intros p w K. apply (says_out x0 bot top a l g M RI G u v); auto; try lra. apply Q6. apply (in_map fst) in K. exact K.
  - intros w K. rewrite Q1 in K. assert (K2 : In w (map snd (ip_ext r))) by (rewrite Q3; destruct K as [<-|[<-|[]]]; simpl; auto). apply in_map_iff in K2 as ([p w'] & <- & K2). eauto.
  - exact Q4.
Qed.
Lemma dome_sided : forall up : bool, (if up then top else bot) = Dome -> 1 / 10^4 <= snd (if up then z else a) ->
  exists r, graph_of x0 inside (End Dome up (if up then z else a)) = Ok r /\ sided (says g) r.
Proof.
  intros up K D. set (u := if up then z else a) in *.
  assert (F : decimal8 x0 /\ decimal8 (fst u) /\ decimal8 (snd u / 2) /\ 1 / 10^5 <= snd u) by (unfold u; destruct up; [apply (fz x0 a l M)|apply (fa x0 a l M)]).
  destruct F as (D0 & D1 & D2 & D3).
  destruct (PIntex.head_probes (fst u) x0 (snd u) (sg up) D0 D) as (lf & rt & E & H); [destruct up; auto|].
  assert (GR : head_graph (A := RA) (fst u) x0 (snd u) (sg up) = closed_by x0 Dome up u) by (destruct up; reflexivity).
  rewrite GR in E. destruct (dome_apex x0 up u D0 D1 D2) as (hh & EQ & AB). set (T := @mkpt RA x0 (fst u + sg up * hh)) in *.
  set (s := Wall (corner x0 false u) T) in *. set (t := Wall T (corner x0 true u)) in *.
  assert (ST : seg_sameb t s = false).
  { unfold seg_sameb, pt_sameb. ra. unfold s, t, T. cbn [Wall si sj sc px corner]. replace (Reqb x0 (x0 + sg false * (snd u / 2))) with false; [rewrite andb_false_r; reflexivity|].
    symmetry. apply Reqb_false. unfold sg. lra. }
  assert (SAYS := says_end x0 bot top a l g M RI NE G up). cbv zeta in SAYS. fold z in SAYS. rewrite K in SAYS. fold u in SAYS.
  destruct (H lf (-1)) as (L1 & L2 & L3 & _ & L5 & L6 & L7); auto. destruct (H rt 1) as (R1 & R2 & R3 & _ & R5 & R6 & R7); auto.
  apply Forall_app in L7 as [L7 L8]. apply Forall_app in R7 as [R7 R8].
  eexists. split.
  - unfold graph_of. apply (renew_const _ (combine [s; t] [lf; rt]) _ [lf; rt]).
    + intros k. change (head_intex (A := RA) (fst u) x0 (snd u) (sg up) (closed_by x0 Dome up u) = Ok (combine [s; t] [lf; rt])). rewrite E, EQ. reflexivity.
    + cbn [walls_of]. rewrite EQ. fold s t. constructor; [|constructor; [|constructor]]; cbn [combine row_of]; rewrite ?same_refl, ?ST; auto.
  - assert (RD : forall (ps : list (pt RA)) (w : seg RA) p s', Forall stored ps -> In (p, s') (map (fun p : pt RA => (Point_new (A := RA) (px p) (py p), w)) ps) -> In p ps /\ s' = w).
    { intros ps w p s' FS I. apply in_map_iff in I as (q & I & IQ). injection I as <- <-. rewrite Forall_forall in FS. rewrite stored_new; auto. }
    cbn [walls_of]. rewrite EQ. fold s t. cbn [combine flat_map]. rewrite !app_nil_r. rewrite L3, R3. cbn [map app].
    rewrite Forall_forall in L5, L6, R5, R6.
    constructor; cbn [ip_segs ip_int ip_ext ip_ind].
    + discriminate.
    + intros p w I. apply in_app_iff in I as [I|I]; apply RD in I as [I _]; auto; apply (proj1 (SAYS p)); auto.
    + destruct (pr_internal lf); [discriminate L1|]. discriminate.
    + intros p w I. apply in_app_iff in I as [I|I]; apply RD in I as [I _]; auto; apply (proj2 (SAYS p)); auto.
    + intros w [<-|[<-|[]]].
      * destruct (pr_external lf) as [|p ps]; [discriminate L2|]. exists (Point_new (A := RA) (px p) (py p)). left. reflexivity.
      * destruct (pr_external rt) as [|p ps]; [discriminate R2|]. exists (Point_new (A := RA) (px p) (py p)). apply in_app_iff. right. left. reflexivity.
    + reflexivity.
Qed.
Lemma flat_neutral : forall up : bool, (if up then top else bot) = Flat ->
  exists r, graph_of x0 inside (End Flat up (if up then z else a)) = Ok r /\ neutral (says g) r.
Proof.
  intros up K. set (u := if up then z else a) in *.
  assert (F : decimal8 x0 /\ decimal8 (fst u) /\ decimal8 (snd u / 2) /\ 1 / 10^5 <= snd u) by (unfold u; destruct up; [apply (fz x0 a l M)|apply (fa x0 a l M)]).
  destruct F as (D0 & D1 & D2 & D3).
  destruct (PIntex.flat_probes (fst u) x0 (snd u) D1 D0 D2 D3) as (_ & s & p & q & E & EI & PX & QX & PY & QY & EP & EQ).
  assert (SAYS := says_end x0 bot top a l g M RI NE G up). cbv zeta in SAYS. fold z in SAYS. rewrite K in SAYS. fold u in SAYS.
  assert (W : walls_of x0 (End Flat up u) = [s]).
  { cbn [walls_of closed_by]. rewrite E. assert (C : is_wall s = true) by (rewrite PVessel.flat_spec in E by auto; injection E as <-; reflexivity). unfold wall_segments. cbn [filter]. rewrite C. reflexivity. }
  eexists. split.
  - unfold graph_of. apply (renew_const _ [(s, mkprobes [] [] [p; q])] _ [mkprobes [] [] [p; q]]).
    + intros k. unfold probes_of. rewrite EI. reflexivity.
    + rewrite W. constructor; [|constructor]. cbn [row_of]. rewrite same_refl. reflexivity.
  - rewrite W. constructor; cbn [ip_segs ip_int ip_ext ip_ind combine flat_map pr_internal pr_external pr_indifferent map app]; auto.
    assert (RND : forall y : R, Rabs (Rround8 y - y) <= 5 / 10^9) by (intros y; eapply Rle_trans; [apply Rround8_err|lra]).
    apply PIntex.Rabs_le' in EP, EQ. destruct up.
    + exists (Point_new (A := RA) (px p) (py p)), s. split; [left; auto|]. split; [left; auto|]. apply SAYS. unfold sg, Point_new. cbn [py]. change (@nround8 RA) with Rround8.
      specialize (RND (py p)). apply PIntex.Rabs_le' in RND. lra.
    + exists (Point_new (A := RA) (px q) (py q)), s. split; [left; auto|]. split; [right; left; auto|]. apply SAYS. unfold sg, Point_new. cbn [py]. change (@nround8 RA) with Rround8.
      specialize (RND (py q)). apply PIntex.Rabs_le' in RND. lra.
Qed.
End Graphs.

(** ** raum_intex *)
Section Report.
Context (q : pt RA -> bool -> Prop) (prepare : iroom RA -> res unit) (inside : nat -> iroom RA -> pt RA -> res bool) (turn : seg RA -> seg RA).
Context (ANS : forall n r p, exists b, inside n r p = Ok b /\ forall c, q p c -> b = c).
Lemma all_spec : forall ps n r, exists m b, all_inside inside n r ps = Ok (m, b) /\
  ((forall x, In x ps -> q (MRaum.ip_pt x) true) -> b = true) /\ ((exists x, In x ps /\ q (MRaum.ip_pt x) false) -> b = false).
Proof.
  intros ps. induction ps as [|x ps IH]; intros n r.
  - exists n, true. split; [reflexivity|]. split; auto. intros (x & [] & _).
  - cbn [all_inside]. destruct (ANS n r (MRaum.ip_pt x)) as (b & E & H). rewrite E. cbn [bind]. destruct b.
    + destruct (IH (S n) r) as (m & b & E' & H1 & H2). exists m, b. split; auto. split; [intros K; apply H1; intros y Y; apply K; right; auto|].
      intros (y & [<-|Y] & K); [specialize (H false K); discriminate|]. apply H2. eauto.
    + exists (S n), false. split; auto. split; auto. intros K. apply H. apply K. left. auto.
Qed.
Lemma some_spec : forall want ps ss n r, exists m b, some_segment inside want n r ps ss = Ok (m, b) /\
  let own s x := In x ps /\ seg_eqb (MRaum.ip_segment x) s = true in
  (want = true -> (exists s, In s ss) -> (forall x, In x ps -> q (MRaum.ip_pt x) true) -> b = true) /\
  (want = true -> (forall s, In s ss -> exists x, own s x /\ q (MRaum.ip_pt x) false) -> b = false) /\
  (want = false -> (exists s x, In s ss /\ own s x /\ q (MRaum.ip_pt x) false) -> b = true).
Proof.
  intros want ps ss. induction ss as [|s ss IH]; intros n r.
  - exists n, false. split; [reflexivity|]. cbv zeta. split; [intros _ (s & [])|]. split; auto. intros _ (s & x & [] & _).
  - cbn [some_segment]. destruct (all_spec (filter (fun x => seg_eqb (MRaum.ip_segment x) s) ps) n r) as (m & b & E & H1 & H2). rewrite E. cbn [bind].
    destruct (IH m r) as (m' & c & E' & K1 & K2 & K3). rewrite E'. cbn [bind]. exists m', (Bool.eqb b want || c). split; auto. cbv zeta in *. split; [|split].
    + intros -> _ H. rewrite H1; [reflexivity|]. intros x X. apply filter_In in X as [X _]. auto.
    + intros -> H. rewrite H2; [cbn; apply K2; auto; intros t T; apply H; right; auto|]. destruct (H s (or_introl eq_refl)) as (x & [X1 X2] & X3). exists x. split; auto. apply filter_In. auto.
    + intros -> (t & x & [<-|T] & [X1 X2] & X3).
      * rewrite H2; [reflexivity|]. exists x. split; auto. apply filter_In. auto.
      * rewrite K3; [apply orb_true_r|auto|]. exists t, x. auto.
Qed.
Lemma eqb_refl : forall s : seg RA, seg_eqb s s = true.
Proof.
  intros s. unfold seg_eqb, pt_eqb. ra. assert (SC : scls_eqb (sc s) (sc s) = true) by (destruct (sc s); reflexivity). rewrite SC.
  assert (Z : forall x : R, Rltb (Rabs (x - x)) (1 / 100000000 * 1000) = true) by (intros x; apply Rltb_true; replace (x - x) with 0 by ring; rewrite Rabs_R0; lra).
  rewrite !Z. reflexivity.
Qed.
Definition fits (c : vpart) (r : ipoly RA) : Prop := match c with End Flat _ _ => neutral q r | _ => sided q r end.
Lemma categories : forall c k r n room, fits c r -> exists m1 m2 m3, let ht := seen_as turn k r in
  category inside true n room (p_internal ht) (p_segments ht) = Ok (m1, match c with End Flat _ _ => false | _ => true end) /\
  category inside true m1 room (p_external ht) (p_segments ht) = Ok (m2, false) /\
  category inside false m2 room (p_indifferent ht) (p_segments ht) = Ok (m3, match c with End Flat _ _ => true | _ => false end).
Proof.
  intros c k r n room F. unfold seen_as. cbn [p_internal p_external p_indifferent p_segments].
  assert (SD : sided q r -> exists m1 m2 m3,
    category inside true n room (map (fun '(p, s) => MRaum.mkip p (turn s)) (ip_int r)) (map turn (ip_segs r)) = Ok (m1, true) /\
    category inside true m1 room (map (fun '(p, s) => MRaum.mkip p (turn s)) (ip_ext r)) (map turn (ip_segs r)) = Ok (m2, false) /\
    category inside false m2 room (map (fun '(p, s) => MRaum.mkip p (turn s)) (ip_ind r)) (map turn (ip_segs r)) = Ok (m3, false)).
  { intros [S1 S2 S3 S4 S5 S6]. unfold category. rewrite S6. cbn [map].
    destruct (some_spec true (map (fun '(p, s) => MRaum.mkip p (turn s)) (ip_int r)) (map turn (ip_segs r)) n room) as (m1 & b1 & E1 & H1 & _).
    destruct (some_spec true (map (fun '(p, s) => MRaum.mkip p (turn s)) (ip_ext r)) (map turn (ip_segs r)) m1 room) as (m2 & b2 & E2 & _ & H2 & _).
    exists m1, m2, m2. split; [|split; auto].
    - rewrite H1 in E1; auto.
      + destruct (ip_int r); [congruence|]. exact E1.
      + destruct (ip_segs r) as [|s ?]; [congruence|]. exists (turn s). left. auto.
      + intros x X. apply in_map_iff in X as ([p s] & <- & X). cbn. eauto.
    - rewrite H2 in E2; auto.
      + destruct (ip_segs r) as [|s ss] eqn:ES; [congruence|]. destruct (S5 s (or_introl eq_refl)) as (p & P). destruct (ip_ext r); [destruct P|]. exact E2.
      + intros s' S'. apply in_map_iff in S' as (s & <- & I). destruct (S5 s I) as (p & P). exists (MRaum.mkip p (turn s)). split; [split|].
        * apply (in_map (fun '(p, s) => MRaum.mkip p (turn s))) in P. exact P.
        * apply eqb_refl.
        * cbn. eauto. }
  destruct c as [u v|[|] up u]; auto. destruct F as [N1 N2 (p & s & N3 & N4 & N5)]. rewrite N1, N2. unfold category. cbn [map].
  destruct (some_spec false (map (fun '(p, s) => MRaum.mkip p (turn s)) (ip_ind r)) (map turn (ip_segs r)) n room) as (m & b & E & _ & _ & H).
  exists n, n, m. split; auto. split; auto. rewrite H in E; auto.
  - destruct (ip_ind r); [destruct N4|]. exact E.
  - exists (turn s), (MRaum.mkip p (turn s)). split; [apply in_map; auto|]. split; [split; [|apply eqb_refl]|auto]. apply (in_map (fun '(p, s) => MRaum.mkip p (turn s))) in N4. exact N4.
Qed.
Lemma lookup_in : forall (k : string) (t : table), In k (map fst t) -> exists x, lookup String.eqb k t = Ok x.
Proof.
  intros k t. induction t as [|[j x] t IH]; intros I; [destruct I|]. cbn [lookup]. destruct (String.eqb_spec j k); [eauto|]. destruct I as [I|I]; [cbn in I; congruence|auto].
Qed.
Lemma fold_report : forall room, ir_name room = "R1"%string -> forall ks cs gs n (pre : table), Forall2 fits cs gs -> length ks = length cs -> NoDup (map fst pre ++ ks) ->
  exists m, foldM (probe inside room) (map (fun '(k, r) => seen_as turn k r) (combine ks gs)) (n, pre ++ map (fun k => (k, mkintex [] [] [])) ks) = Ok (m, pre ++ combine ks (map told cs)).
Proof.
  intros room NM ks. induction ks as [|k ks IH]; intros cs gs n pre F L ND.
  - exists n. destruct cs; reflexivity.
  - destruct F as [|c r cs gs F1 F]; [discriminate L|]. injection L as L. cbn [combine map foldM].
    destruct (categories c k r n room F1) as (m1 & m2 & m3 & C1 & C2 & C3). unfold probe at 1. rewrite C1. cbn [bind]. rewrite C2. cbn [bind]. rewrite C3. cbn [bind].
    set (i := match c with End Flat _ _ => false | _ => true end). set (d := match c with End Flat _ _ => true | _ => false end).
    replace (i || false || d) with true by (unfold i, d; destruct c as [|[|]]; reflexivity).
    change (p_name (seen_as turn k r)) with k.
    destruct (lookup_in k (pre ++ (k, mkintex [] [] []) :: map (fun k0 => (k0, mkintex [] [] [])) ks)) as (x & EX); [rewrite map_app; apply in_app_iff; right; left; reflexivity|].
    rewrite EX. cbn [bind]. rewrite NM.
    destruct (IH cs gs m3 (pre ++ [(k, told c)])) as (m & E); auto.
    { rewrite map_app, <- app_assoc. exact ND. }
    exists m. rewrite <- !app_assoc in E. cbn [app] in E. rewrite <- E. f_equal. f_equal. rewrite map_app. cbn [map]. rewrite String.eqb_refl.
    assert (KN : ~ In k (map fst pre) /\ ~ In k ks).
    { pose proof (NoDup_remove_2 _ _ _ ND) as K. rewrite in_app_iff in K. tauto. }
    assert (ID : forall t : table, ~ In k (map fst t) -> map (fun '(k0, x0) => if String.eqb k0 k then (k0, mkintex (sadd i "R1" (innenraum x0)) (sadd false "R1" (aussenraum x0)) (sadd d "R1" (indifferent x0))) else (k0, x0)) t = t).
    { intros t. induction t as [|[j y] t IHt]; intros K; auto. cbn [map]. destruct (String.eqb_spec j k) as [->|]; [exfalso; apply K; left; reflexivity|]. rewrite IHt; auto. intros K2. apply K. right. auto. }
    rewrite ID by tauto. rewrite ID.
    + f_equal. f_equal. f_equal. unfold i, d. destruct c as [|[|]]; reflexivity.
    + rewrite map_map. cbn [fst]. rewrite map_id. tauto.
Qed.
End Report.

Lemma walls_parts : forall x0 bot top a l, map (walls_of x0) (vessel_parts bot top a l) = standing_parts x0 bot top a l.
Proof. intros. unfold vessel_parts, standing_parts. cbn [map walls_of]. f_equal. f_equal. revert a. induction l as [|b l IH]; intros a; simpl; auto. rewrite IH. reflexivity. Qed.
Lemma parts_cases : forall bot top a l c, rising a l -> fair_shells a l -> In c (vessel_parts bot top a l) ->
  (exists up : bool, c = End (if up then top else bot) up (if up then last l a else a)) \/
  exists u v, c = Shell u v /\ In (u, v) (pairs (a :: l)) /\ fst u < fst v /\
    let h := fst v - fst u in let steep := 1 + Rabs (snd v - snd u) / (2 * h) in steep <= 10^6 * h /\ steep <= 100 * snd u /\ steep <= 20000.
Proof.
  intros bot top a l c RI FS [<-|[<-|I]]; [left; exists false; auto|left; exists true; auto|right].
  revert a RI FS I. induction l as [|b l IH]; intros a RI FS I; [destruct I|]. destruct RI as [R1 R2], FS as (F1 & F2 & F3 & F4).
  destruct I as [<-|I].
  - exists a, b. split; auto. split; [left; auto|]. split; [lra|auto].
  - destruct (IH b R2 F4 I) as (u & v & E & K & Q). exists u, v. split; auto. split; [right; auto|auto].
Qed.
Lemma dedup_all : forall l : list string, NoDup l -> dedup String.eqb l = l.
Proof.
  cut (forall l acc : list string, NoDup (acc ++ l) -> dedup_acc String.eqb l acc = acc ++ l).
  { intros H l N. exact (H l [] N). }
  intros l. induction l as [|x l IH]; intros acc N; cbn [dedup_acc]; [rewrite app_nil_r; auto|].
  assert (K : memb String.eqb x acc = false).
  { apply NoDup_remove_2 in N. rewrite in_app_iff in N. assert (N' : ~ In x acc) by tauto. clear - N'. induction acc as [|y acc IHa]; auto. cbn [memb].
    destruct (String.eqb_spec y x) as [->|]; [exfalso; apply N'; left; auto|]. apply IHa. intros I. apply N'. right. auto. }
  rewrite K, IH; rewrite <- app_assoc; auto.
Qed.

(*@ C98_intex *)
(** C98: what raum_intex reports for such a vessel with the room R1 whose outer walls are all its parts: R1 is inside every
    shell and every head, outside none, and indifferent to the flat ends.  The shells are not too flat and not too
    small (as in C79), the diameters at least 1e-4.  The tests for inner points of the shells (inside_m) and of the
    room (inside) answer always, and rightly for points that are not on the walls; the room's answer is right if it
    follows the even-odd rule for its corners vs (C35). Segments may have been turned round by the room search. *)
Lemma standing_intex : forall x0 bot top a l (cs : list vpart) names (inside_m : vpart -> nat -> nat -> nat -> nat -> pt RA -> res bool) turn vs
  (prepare : iroom RA -> res unit) (inside : nat -> iroom RA -> pt RA -> res bool),
  measured x0 (a :: l) -> rising a l -> l <> [] -> fair_shells a l -> (forall u, In u (a :: l) -> 1 / 10^4 <= snd u) ->
  Permutation cs (vessel_parts bot top a l) -> NoDup names -> length names = length cs ->
  (forall u v k, right_answers (inside_m (Shell u v) k) (outline_of x0 u v)) -> (forall s, turned (turn s) s) ->
  let walls := concat (map (walls_of x0) cs) in
  polygon_of vs walls -> (forall r, prepare r = Ok tt) ->
  (forall n r p, exists b, inside n r p = Ok b /\ (off_walls walls p -> b = even_odd vs p)) ->
  exists gs, mapM (graph_of x0 inside_m) cs = Ok gs /\
    raum_intex prepare inside names [mkiroom "R1"%string [] (map (fun '(k, g) => seen_as turn k g) (combine names gs))] = Ok (combine names (map told cs)).
Proof.
  intros x0 bot top a l cs names inside_m turn vs prepare inside M RI NE FS DI PC ND LN AM _ walls PO PR AN.
  assert (G : Permutation walls (concat (standing_parts x0 bot top a l))).
  { unfold walls. apply concat_perm. rewrite <- walls_parts. apply Permutation_map. auto. }
  assert (EACH : forall c, In c cs -> exists r, graph_of x0 inside_m c = Ok r /\ fits (says walls) c r).
  { intros c I. apply (Permutation_in _ PC) in I. destruct (parts_cases bot top a l c RI FS I) as [(up & ->)|(u & v & -> & I2 & L & F)].
    - destruct (if up then top else bot) eqn:K.
      + destruct (flat_neutral x0 bot top a l walls M RI NE G inside_m up K) as (r & E & H). exists r. split; auto.
      + destruct (dome_sided x0 bot top a l walls M RI NE G inside_m up K) as (r & E & H); [destruct up; apply DI; [apply last_in|left; auto]|]. exists r. split; auto.
    - destruct (shell_sided x0 bot top a l walls M RI G inside_m u v I2) as (r & E & H); auto. exists r. split; auto. }
  assert (GS : exists gs, mapM (graph_of x0 inside_m) cs = Ok gs /\ Forall2 (fits (says walls)) cs gs).
  { clear - EACH. clearbody walls. induction cs as [|c cs IH]; [exists []; split; [reflexivity|constructor]|].
    destruct (EACH c (or_introl eq_refl)) as (r & E & H). destruct IH as (gs & E2 & H2); [intros; apply EACH; right; auto|].
    exists (r :: gs). split; [|constructor; auto]. cbn [mapM]. rewrite E. cbn [bind]. rewrite E2. reflexivity. }
  destruct GS as (gs & EG & FG). exists gs. split; auto.
  unfold raum_intex. cbn [foldM]. rewrite PR. cbn [bind ir_innen ir_aussen app]. rewrite dedup_all by auto.
  set (room := mkiroom "R1"%string [] _).
  destruct (fold_report (says walls) prepare inside turn) with (room := room) (ks := names) (cs := cs) (gs := gs) (n := 0%nat) (pre := @nil (string * intex)) as (m & E); auto.
  - intros n r p. destruct (AN n r p) as (b & E & H). exists b. split; auto. intros c [O Q]. rewrite (H O), (hits_cycle vs walls p PO). auto.
  - cbn [app] in E. match type of E with ?e = _ => match goal with |- context [foldM ?f ?x ?y] => change (foldM f x y) with e end end. rewrite E. reflexivity.
Qed.

(*@ C98_polygon *)
(** C98: there are such corners: the walls of a standing vessel, taken together, are the edges of one polygon with different corners,
    and no two of them are reported to cross. *)
Lemma standing_polygon : forall x0 bot top a l (cs : list vpart), measured x0 (a :: l) -> rising a l -> l <> [] -> (length l <= 60)%nat ->
  Permutation cs (vessel_parts bot top a l) ->
  let walls := concat (map (walls_of x0) cs) in uncrossed walls /\ exists vs, NoDup vs /\ polygon_of vs walls.
Proof.
  intros x0 bot top a l cs M RI NE LL PC walls.
  destruct (standing_ring x0 bot top a l (map (walls_of x0) cs) M RI NE LL) as ((vs & cyc & _ & ND & _ & F & P) & UN & _); [rewrite <- walls_parts; apply Permutation_map; auto|].
  split; auto. exists vs. split; auto. exists cyc. auto.
Qed.

(*@ex C98_intex_example *)
(** C98: the vessel of C98_example, its parts named A, B, C, D: the hypotheses can be met, also by tests that answer as
    they should. *)
Lemma standing_intex_example : exists gs, let cs := vessel_parts Dome Flat (0, 2) [(5, 2); (7, 1)] in let names := ["A"; "B"; "C"; "D"]%string in
  exists vs, polygon_of vs (concat (map (walls_of 1) cs)) /\
  raum_intex (A := RA) (fun _ => Ok tt) (fun _ _ p => Ok (even_odd vs p)) names [mkiroom "R1"%string [] (map (fun '(k, g) => seen_as (fun s => s) k g) (combine names gs))] =
  Ok [("A", mkintex ["R1"] [] []); ("B", mkintex [] [] ["R1"]); ("C", mkintex ["R1"] [] []); ("D", mkintex ["R1"] [] [])]%string.
Proof.
  destruct standing_example as (M & RI & _). set (cs := vessel_parts Dome Flat (0, 2) [(5, 2); (7, 1)]).
  destruct (standing_polygon 1 Dome Flat (0, 2) [(5, 2); (7, 1)] cs M RI) as (_ & vs & _ & PO); [discriminate|simpl; lia|apply Permutation_refl|].
  destruct (standing_intex 1 Dome Flat (0, 2) [(5, 2); (7, 1)] cs ["A"; "B"; "C"; "D"]%string
    (fun c _ _ _ _ p => match c with Shell u v => PIntex.answer_for (outline_of 1 u v) p | _ => Ok true end) (fun s => s) vs (fun _ => Ok tt) (fun _ _ p => Ok (even_odd vs p)) M RI) as (gs & _ & E); auto.
  - discriminate.
  - cbn. replace (2 - 2) with 0 by ring. rewrite Rabs_R0. rewrite Rabs_left by lra. lra.
  - intros u [<-|[<-|[<-|[]]]]; cbn; lra.
  - repeat constructor; simpl; intuition discriminate.
  - intros u v k. apply PIntex.answer_right.
  - intros s. left. reflexivity.
  - intros n r p. eauto.
  - exists gs, vs. split; auto.
Qed.
