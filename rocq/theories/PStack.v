(** A standing vessel - shells on top of each other between two ends - gets exactly one room. *)
From Coq Require Import String Reals ZArith Lra Lia Bool List Psatz Permutation Arith Classical.
From Verif Require Import Base Arith ArithR ArithF MPoint MLine MPoly MHeap MVessel MTri MGroup MCycles MBase MContain MRaum MRooms
  Spec SpecGroup SpecLoops SpecBase SpecRooms SpecRing SpecHeap SpecStack PPoint PLine PConvex POrder PGroup PLoops POneRoom PPlainLoop.
From Verif Require PHeap PVessel PSplit SpecSplit.
Import ListNotations.
Local Open Scope list_scope.
Local Open Scope R_scope.
#[local] Existing Instance RA.

(** ** Segments that do not cross because their boxes are apart *)
Definition shares (s t : seg RA) : Prop := exists p, In p (ij s) /\ In p (ij t).
Definition under (f : pt RA -> R) (s t : seg RA) : Prop := forall p q, In p (ij s) -> In q (ij t) -> f p + 3 / 10^8 < f q.
Definition clear (s t : seg RA) : Prop := shares s t \/ under px s t \/ under px t s \/ under py s t \/ under py t s.

Lemma clear_sym : forall s t, clear s t -> clear t s.
Proof. intros s t [(p & a & b)|[H|[H|[H|H]]]]; [left; exists p; auto|right; right; left|right; left|right; right; right; right|right; right; right; left]; auto. Qed.
Lemma box_between : forall f (s : seg RA) y a, Rmin (f (si s)) (f (sj s)) - a <= y <= Rmax (f (si s)) (f (sj s)) + a ->
  (exists p, In p (ij s) /\ f p - a <= y) /\ (exists q, In q (ij s) /\ y <= f q + a).
Proof.
  intros f s y a [H K]. unfold Rmin, Rmax in H, K. split.
  - destruct (Rle_dec (f (si s)) (f (sj s))); [exists (si s)|exists (sj s)]; split; simpl; auto.
  - destruct (Rle_dec (f (si s)) (f (sj s))); [exists (sj s)|exists (si s)]; split; simpl; auto.
Qed.
Lemma clear_ios : forall s t, clear s t -> intersection_on_segment s t = Ok false.
Proof.
  intros s t [(p & I & J)|C]; [apply PSplit.no_crossing_ios; left; exists p; auto|].
  unfold intersection_on_segment. destruct (touch s t) eqn:T; [reflexivity|].
  destruct (intersection_point s t) as [[p|]|e] eqn:E; cbn [bind]; auto.
  2:{ destruct (ios_total s t) as (b & Q). unfold intersection_on_segment in Q. rewrite T, E in Q. discriminate. }
  destruct (ls_is_internal_point s p && ls_is_internal_point t p) eqn:X; auto. exfalso.
  apply andb_true_iff in X. destruct X as [X Y]. apply internal_iff_R in X, Y. destruct X as [X1 X2], Y as [Y1 Y2].
  assert (X1' : Rmin (px (si s)) (px (sj s)) - 1 / 100000000 <= px p <= Rmax (px (si s)) (px (sj s)) + 1 / 100000000) by lra.
  assert (Y1' : Rmin (px (si t)) (px (sj t)) - 1 / 100000000 <= px p <= Rmax (px (si t)) (px (sj t)) + 1 / 100000000) by lra.
  apply box_between in X1'; apply box_between in Y1'; apply box_between in X2; apply box_between in Y2.
  destruct X1' as [(a1 & A1 & B1) (a2 & A2 & B2)], Y1' as [(a3 & A3 & B3) (a4 & A4 & B4)], X2 as [(a5 & A5 & B5) (a6 & A6 & B6)], Y2 as [(a7 & A7 & B7) (a8 & A8 & B8)].
  clear - C A1 B1 A2 B2 A3 B3 A4 B4 A5 B5 A6 B6 A7 B7 A8 B8.
  destruct C as [H|[H|[H|H]]]; [pose proof (H a2 a3 A2 A3)|pose proof (H a4 a1 A4 A1)|pose proof (H a6 a7 A6 A7)|pose proof (H a8 a5 A8 A5)]; lra.
Qed.

(** ** Lists in which every two elements are related *)
Lemma fop_app : forall X (Q : X -> X -> Prop) l m, ForallOrdPairs Q l -> ForallOrdPairs Q m -> (forall x y, In x l -> In y m -> Q x y) -> ForallOrdPairs Q (l ++ m).
Proof.
  intros X Q l m H. induction H as [|x l F H IH]; intros M C; simpl; auto. constructor.
  - apply Forall_app. split; auto. apply Forall_forall. intros y I. apply C; simpl; auto.
  - apply IH; auto. intros; apply C; simpl; auto.
Qed.
Lemma fop_rev : forall X (Q : X -> X -> Prop) l, (forall x y, Q x y -> Q y x) -> ForallOrdPairs Q l -> ForallOrdPairs Q (rev l).
Proof.
  intros X Q l S0 H. induction H as [|x l F H IH]; simpl; [constructor|]. apply fop_app; auto; [repeat constructor|].
  intros a b I [<-|[]]. apply S0. rewrite Forall_forall in F. apply F. apply in_rev. exact I.
Qed.
Lemma fop_any : forall X (Q : X -> X -> Prop) l x y, (forall x y, Q x y -> Q y x) -> ForallOrdPairs Q l -> In x l -> In y l -> x = y \/ Q x y.
Proof.
  intros X Q l x y S0 H. induction H as [|a l F H IH]; intros I J; [destruct I|]. rewrite Forall_forall in F.
  destruct I as [<-|I], J as [<-|J]; auto.
Qed.

Definition apart2 (p q : pt RA) : Prop := 1 / 10^5 <= Rabs (px p - px q) \/ 1 / 10^5 <= Rabs (py p - py q).
Lemma apart2_sym : forall p q, apart2 p q -> apart2 q p.
Proof. intros p q. unfold apart2. rewrite (Rabs_minus_sym (px p)), (Rabs_minus_sym (py p)). auto. Qed.
Lemma apart2_fresh : forall vs, ForallOrdPairs apart2 vs -> NoDup vs /\ separated vs.
Proof.
  intros vs H. split.
  - induction H as [|x l F H IH]; constructor; auto. intros I. rewrite Forall_forall in F. destruct (F x I) as [E|E]; rewrite Rminus_eq_0, Rabs_R0 in E; lra.
  - intros p q I J A B. destruct (fop_any _ _ _ p q apart2_sym H I J) as [E|[E|E]]; auto; lra.
Qed.

(** ** Steps along a list of points *)
Lemma pairs_join : forall X (a b : list X) x, pairs (a ++ x :: b) = pairs (a ++ [x]) ++ pairs (x :: b).
Proof.
  intros X a b x. induction a as [|u a IH]; [reflexivity|]. destruct a as [|w a]; [reflexivity|].
  change (pairs ((u :: w :: a) ++ x :: b)) with ((u, w) :: pairs ((w :: a) ++ x :: b)). rewrite IH. reflexivity.
Qed.
Lemma forall2_rev : forall X Y (Q : X -> Y -> Prop) l m, Forall2 Q l m -> Forall2 Q (rev l) (rev m).
Proof. intros X Y Q l m H. induction H; simpl; [constructor|]. apply Forall2_app; auto. Qed.
Lemma pairs_swap : forall X (l : list X), pairs (rev l) = rev (map (fun e => (snd e, fst e)) (pairs l)).
Proof.
  intros X l. induction l as [|x l IH]; [reflexivity|]. destruct l as [|y l]; [reflexivity|].
  change (rev (x :: y :: l)) with ((rev l ++ [y]) ++ [x]). rewrite <- app_assoc. cbn [app]. rewrite pairs_join.
  change (rev l ++ [y]) with (rev (y :: l)). rewrite IH. reflexivity.
Qed.

(** ** The corners and walls of the vessel *)
Definition sg (r : bool) : R := if r then 1 else -1.
Definition corner (x0 : R) (r : bool) (a : level) : pt RA := @mkpt RA (x0 + sg r * (snd a / 2)) (fst a).
Definition side_wall (x0 : R) (r : bool) (a b : level) : seg RA :=
  if r then Wall (corner x0 true a) (corner x0 true b) else Wall (corner x0 false b) (corner x0 false a).
Fixpoint side (x0 : R) (r : bool) (a : level) (l : list level) : list (seg RA) :=
  match l with [] => [] | b :: l' => side_wall x0 r a b :: side x0 r b l' end.

Lemma side_wall_ends : forall x0 r a b p, In p (ij (side_wall x0 r a b)) <-> p = corner x0 r a \/ p = corner x0 r b.
Proof. intros x0 [] a b p; simpl; split; intros H; intuition. Qed.
Lemma last_cons : forall X (l : list X) a b, last (b :: l) a = last l b.
Proof. intros X l. induction l as [|c l IH]; intros a b; [reflexivity|]. change (last (b :: c :: l) a) with (last (c :: l) a). rewrite !IH. reflexivity. Qed.
Lemma last_in : forall X (l : list X) a, In (last l a) (a :: l).
Proof. intros X l. induction l as [|b l IH]; intros a; [left; reflexivity|]. rewrite last_cons. right. apply IH. Qed.
Lemma rising_from : forall l a u, rising a l -> In u (a :: l) -> fst a <= fst u.
Proof.
  intros l. induction l as [|b l IH]; intros a u H I; [destruct I as [<-|[]]; lra|].
  destruct H as [H1 H2]. destruct I as [<-|I]; [lra|]. pose proof (IH b u H2 I). lra.
Qed.
Lemma rising_last : forall l a u, rising a l -> In u (a :: l) -> fst u <= fst (last l a).
Proof.
  intros l. induction l as [|b l IH]; intros a u H I; [destruct I as [<-|[]]; simpl; lra|]. rewrite last_cons.
  destruct H as [H1 H2]. destruct I as [<-|I]; [|auto]. pose proof (IH b b H2 (or_introl eq_refl)). lra.
Qed.

Lemma side_ends : forall x0 r l a s p, In s (side x0 r a l) -> In p (ij s) -> exists u, In u (a :: l) /\ p = corner x0 r u.
Proof.
  intros x0 r l. induction l as [|b l IH]; intros a s p I J; [destruct I|]. destruct I as [<-|I].
  - apply side_wall_ends in J. destruct J as [->| ->]; [exists a|exists b]; simpl; auto.
  - destruct (IH b s p I J) as (u & U & E). exists u. split; auto. right. exact U.
Qed.
Lemma side_low : forall x0 r l a s, rising a l -> In s (side x0 r a l) -> In (corner x0 r a) (ij s) \/ forall p, In p (ij s) -> fst a + 1 / 10^5 <= py p.
Proof.
  intros x0 r [|b l] a s H I; [destruct I|]. destruct H as [H1 H2]. destruct I as [<-|I]; [left; apply side_wall_ends; auto|].
  right. intros p J. destruct (side_ends x0 r l b s p I J) as (u & U & ->). cbn [corner py]. pose proof (rising_from l b u H2 U). lra.
Qed.
Lemma side_high : forall x0 r l a s, rising a l -> In s (side x0 r a l) ->
  In (corner x0 r (last l a)) (ij s) \/ forall p, In p (ij s) -> py p <= fst (last l a) - 1 / 10^5.
Proof.
  intros x0 r l. induction l as [|b l IH]; intros a s H I; [destruct I|]. rewrite last_cons. destruct H as [H1 H2]. destruct I as [<-|I]; [|apply IH; auto].
  destruct l as [|c l]; [left; apply side_wall_ends; auto|]. right. intros p J. rewrite last_cons.
  destruct H2 as [H2 H3]. pose proof (rising_last l c c H3 (or_introl eq_refl)).
  apply side_wall_ends in J. destruct J as [->| ->]; cbn [corner py]; lra.
Qed.
Lemma side_clear : forall x0 r l a, rising a l -> ForallOrdPairs clear (side x0 r a l).
Proof.
  intros x0 r l. induction l as [|b l IH]; intros a H; cbn [side]; [constructor|]. destruct H as [H1 H2]. constructor; [|auto].
  apply Forall_forall. intros t I. destruct (side_low x0 r l b t H2 I) as [J|J].
  - left. exists (corner x0 r b). split; auto. apply side_wall_ends. auto.
  - right. right. right. left. intros p q P Q. specialize (J q Q). apply side_wall_ends in P. destruct P as [->| ->]; cbn [corner py]; lra.
Qed.
Lemma side_joins : forall x0 r l a, Forall2 joins (pairs (map (corner x0 r) (a :: l))) (side x0 r a l).
Proof.
  intros x0 r l. induction l as [|b l IH]; intros a; [constructor|].
  change (pairs (map (corner x0 r) (a :: b :: l))) with ((corner x0 r a, corner x0 r b) :: pairs (map (corner x0 r) (b :: l))).
  constructor; auto. unfold joins. destruct r; simpl; auto.
Qed.
Lemma corners_apart : forall x0 r l a, rising a l -> ForallOrdPairs apart2 (map (corner x0 r) (a :: l)).
Proof.
  intros x0 r l. induction l as [|b l IH]; intros a H; [repeat constructor|]. destruct H as [H1 H2]. cbn [map]. constructor; [|apply IH; auto].
  apply Forall_forall. intros q I. change (corner x0 r b :: map (corner x0 r) l) with (map (corner x0 r) (b :: l)) in I. apply in_map_iff in I. destruct I as (u & <- & U).
  right. cbn [corner py]. pose proof (rising_from l b u H2 U). rewrite Rabs_left1; lra.
Qed.

(** ** The parts as the constructors make them *)
Lemma round_fix : forall x, decimal8 x -> Rround8 x = x.
Proof. intros x D. apply Rround8_id, PHeap.decimal8_grid. exact D. Qed.
Lemma dec_add : forall x y, decimal8 x -> decimal8 y -> decimal8 (x + y).
Proof. intros x y (k & ->) (m & ->). exists (k + m)%Z. rewrite plus_IZR. lra. Qed.
Lemma dec_opp : forall x, decimal8 x -> decimal8 (- x).
Proof. intros x (k & ->). exists (- k)%Z. rewrite opp_IZR. lra. Qed.
Lemma wall_eq : forall x y u v x' y' u' v' : R, x = x' -> y = y' -> u = u' -> v = v' ->
  @mkseg RA CWall (@mkpt RA x y) (@mkpt RA u v) = mkseg CWall (@mkpt RA x' y') (@mkpt RA u' v').
Proof. intros; subst; reflexivity. Qed.
Lemma shell_eq : forall x0 (a b : level), decimal8 x0 -> decimal8 (fst a) -> decimal8 (fst b) -> decimal8 (snd a / 2) -> decimal8 (snd b / 2) ->
  shell x0 a b = [side_wall x0 true a b; side_wall x0 false a b].
Proof.
  intros x0 [ya da] [yb db] D0 D1 D2 D3 D4. cbn [fst snd] in *. unfold shell. cbn [fst snd].
  destruct (PVessel.mantel_spec ya x0 da db (yb - ya) D0) as (p1 & p2 & -> & _ & _ & E & _).
  destruct (E D3 D4 D1 (dec_add _ _ D2 (dec_opp _ D1))) as [-> ->]. unfold side_wall, corner, sg, mirror, Wall, NonWall. cbn.
  f_equal; [|f_equal]; apply wall_eq; lra.
Qed.
Lemma flat_eq : forall x0 up (a : level), decimal8 x0 -> decimal8 (fst a) -> decimal8 (snd a / 2) ->
  closed_by x0 Flat up a = [Wall (corner x0 false a) (corner x0 true a)].
Proof.
  intros x0 up [y d] D0 D1 D2. cbn [fst snd] in *. unfold closed_by. cbn [fst snd]. rewrite PVessel.flat_spec by auto.
  unfold corner, sg, Wall. cbn. f_equal. apply wall_eq; lra.
Qed.
Lemma dome_eq : forall x0 (up : bool) (a : level), decimal8 x0 -> decimal8 (fst a) -> decimal8 (snd a / 2) ->
  exists T, closed_by x0 Dome up a = [Wall (corner x0 false a) T; Wall T (corner x0 true a)] /\ px T = x0 /\
    (if up then fst a + 1 / 100 < py T else py T < fst a - 1 / 100).
Proof.
  intros x0 up [y d] D0 D1 D2. cbn [fst snd] in *. unfold closed_by, head_graph. cbn [fst snd].
  exists (Point_new (A := RA) x0 (y + (if up then 1 else -1) * h_graph (A := RA) d)). split; [|split].
  - replace (corner x0 false (y, d)) with (Point_new (A := RA) (- d / 2 + x0) y); [replace (corner x0 true (y, d)) with (Point_new (A := RA) (d / 2 + x0) y); [reflexivity|]|];
      unfold Point_new, corner, sg; cbn; f_equal; rewrite round_fix; auto; try lra.
    + apply dec_add; auto.
    + replace (- d / 2 + x0) with (x0 + - (d / 2)) by lra. apply dec_add; auto. apply dec_opp. auto.
  - cbn. apply round_fix. auto.
  - cbn [Point_new py]. change (@nround8 RA) with Rround8.
    assert (G : 1 / 10 <= h_graph (A := RA) d).
    { unfold h_graph. rewrite nmax_R. eapply Rle_trans; [|apply Rmax_l]. unfold ndec. ra_simpl. lra. }
    pose proof (Rround8_err (y + (if up then 1 else -1) * h_graph (A := RA) d)) as E. apply Rabs_le_inv in E.
    destruct up; unfold Point_new; cbn [py]; change (@nround8 RA) with Rround8; lra.
Qed.

(** ** What closes the vessel *)
Definition beyond (up : bool) (y z : R) : Prop := if up then y <= z else z <= y.
Record end_piece (x0 : R) (up : bool) (a : level) (ms : list (pt RA)) (ws : list (seg RA)) : Prop := {
  ep_joins : Forall2 joins (pairs (corner x0 true a :: ms ++ [corner x0 false a])) ws;
  ep_clear : ForallOrdPairs clear ws;
  ep_apex : ForallOrdPairs apart2 ms;
  ep_tip : forall m, In m ms -> px m = x0 /\ (if up then fst a + 1 / 100 < py m else py m < fst a - 1 / 100);
  ep_side : forall s p, In s ws -> In p (ij s) -> beyond up (fst a) (py p);
  ep_half : forall s r, In s ws -> In (corner x0 r a) (ij s) \/ forall p, In p (ij s) -> sg r * (px p - x0) <= 0 }.

Lemma closing_spec : forall x0 k (up : bool) (a : level), decimal8 x0 -> decimal8 (fst a) -> decimal8 (snd a / 2) -> 1 / 10^5 <= snd a ->
  exists ms ws, end_piece x0 up a ms ws /\ Permutation ws (closed_by x0 k up a) /\ (length ms <= 1)%nat /\
    (forall s, In s ws -> sc s = CWall) /\ exists s, In s ws /\ si s = corner x0 false a.
Proof.
  intros x0 k up a D0 D1 D2 P0. destruct k.
  - rewrite flat_eq by auto. exists [], [Wall (corner x0 false a) (corner x0 true a)]. split; [constructor|].
    + cbn. constructor; [|constructor]. right. auto.
    + repeat constructor.
    + constructor.
    + intros m [].
    + intros s p [<-|[]] [<-|[<-|[]]]; destruct up; cbn; lra.
    + intros s r [<-|[]]. left. destruct r; simpl; auto.
    + split; auto. split; [simpl; lia|]. split; [intros s [<-|[]]; reflexivity|]. eexists. split; [left; reflexivity|reflexivity].
  - destruct (dome_eq x0 up a D0 D1 D2) as (T & -> & TX & TY). exists [T], [Wall T (corner x0 true a); Wall (corner x0 false a) T]. split; [constructor|].
    + cbn. constructor; [right; auto|]. constructor; [right; auto|constructor].
    + constructor; [|repeat constructor]. constructor; [|constructor]. left. exists T. simpl. auto.
    + repeat constructor.
    + intros m [<-|[]]. auto.
    + intros s p [<-|[<-|[]]] [<-|[<-|[]]]; destruct up; cbn [beyond corner Wall si sj py]; lra.

    + intros s r [<-|[<-|[]]]; destruct r; [left; simpl; auto|right|right|left; simpl; auto];
        intros p [<-|[<-|[]]]; cbn [corner Wall si sj px sg]; rewrite ?TX; lra.
    + split; [apply perm_swap|]. split; [simpl; lia|]. split; [intros s [<-|[<-|[]]]; reflexivity|]. eexists. split; [right; left; reflexivity|reflexivity].
Qed.

(** ** The walls form one cycle *)
Lemma joins_swap : forall (e : pt RA * pt RA) s, joins e s -> joins (snd e, fst e) s.
Proof. intros [x y] s [[A B]|[A B]]; [right|left]; simpl in *; auto. Qed.
Lemma joins_back : forall vs ws, Forall2 joins (pairs vs) ws -> Forall2 joins (pairs (rev vs)) (rev ws).
Proof.
  intros vs ws H. rewrite pairs_rev. apply forall2_rev. induction H; simpl; constructor; auto. apply joins_swap. auto.
Qed.
Lemma shells_perm : forall x0 l a, measured x0 (a :: l) -> Permutation (concat (shells x0 a l)) (side x0 true a l ++ side x0 false a l).
Proof.
  intros x0 l. induction l as [|b l IH]; intros a [D0 M]; cbn [shells concat side]; [constructor|].
  destruct (M a (or_introl eq_refl)) as (A1 & A2 & _). destruct (M b (or_intror (or_introl eq_refl))) as (B1 & B2 & _).
  rewrite shell_eq by auto. cbn [app]. apply perm_skip. eapply perm_trans; [|apply Permutation_middle]. apply perm_skip.
  apply IH. split; auto. intros u U. apply M. right. exact U.
Qed.
Lemma corner_side : forall x0 l, measured x0 l -> forall a r, In a l -> 5 / 10^6 <= sg r * (px (corner x0 r a) - x0).
Proof. intros x0 l [_ M] a r I. destruct (M a I) as (_ & _ & P). destruct r; unfold corner, sg; cbn [px]; lra. Qed.

Section Standing.
Variables (x0 : R) (a : level) (l : list level) (mb mt : list (pt RA)) (wb wt : list (seg RA)).
Let z := last l a.
Hypotheses (M : measured x0 (a :: l)) (RI : rising a l) (NE : l <> [])
  (EB : end_piece x0 false a mb wb) (ET : end_piece x0 true z mt wt).
Let vs := map (corner x0 true) (a :: l) ++ mt ++ rev (map (corner x0 false) (a :: l)) ++ rev mb.
Let cyc := side x0 true a l ++ wt ++ rev (side x0 false a l) ++ rev wb.

Lemma z_above : fst a + 1 / 10^5 <= fst z.
Proof.
  unfold z. destruct l as [|b l']; [congruence|]. rewrite last_cons. destruct RI as [H1 H2]. pose proof (rising_last l' b b H2 (or_introl eq_refl)). lra.
Qed.
Lemma heights : forall u, In u (a :: l) -> fst a <= fst u <= fst z.
Proof. intros u U. split; [apply (rising_from l)|apply rising_last]; auto. Qed.

Lemma st_joins : Forall2 joins (cycle_edges vs) cyc.
Proof.
  unfold vs, cyc. cbn [map]. rewrite <- app_comm_cons. rewrite cycle_edges_pairs.
  change (rev (corner x0 false a :: map (corner x0 false) l)) with (rev (map (corner x0 false) l) ++ [corner x0 false a]).
  set (C1 := corner x0 true) in *. set (C0 := corner x0 false) in *.
  assert (K : forall r, exists pre, map (corner x0 r) (a :: l) = pre ++ [corner x0 r z]).
  { intros r. exists (map (corner x0 r) (removelast (a :: l))). change [corner x0 r z] with (map (corner x0 r) [z]). rewrite <- map_app. f_equal.
    unfold z. replace (last l a) with (last (a :: l) a) by apply last_cons. apply app_removelast_last. discriminate. }
  destruct (K true) as (p1 & E1). destruct (K false) as (p0 & E0). fold C1 in E1. fold C0 in E0.
  assert (E0' : rev (map C0 l) ++ [C0 a] = C0 z :: rev p0).
  { change (rev (map C0 (a :: l)) = C0 z :: rev p0). rewrite E0, rev_app_distr. reflexivity. }
  replace (C1 a :: (map C1 l ++ mt ++ (rev (map C0 l) ++ [C0 a]) ++ rev mb) ++ [C1 a])
    with (p1 ++ C1 z :: mt ++ C0 z :: rev p0 ++ rev mb ++ [C1 a]).
  2:{ change (p1 ++ C1 z :: mt ++ C0 z :: rev p0 ++ rev mb ++ [C1 a] = (map C1 (a :: l) ++ mt ++ (rev (map C0 l) ++ [C0 a]) ++ rev mb) ++ [C1 a]).
      rewrite E1, E0'. repeat (rewrite <- app_assoc; cbn [app]). reflexivity. }
  rewrite pairs_join. apply Forall2_app; [rewrite <- E1; apply side_joins|].
  rewrite app_comm_cons, pairs_join. apply Forall2_app; [apply (ep_joins _ _ _ _ _ ET)|].
  replace (C0 z :: rev p0 ++ rev mb ++ [C1 a]) with (rev (map C0 l) ++ C0 a :: rev mb ++ [C1 a]).
  2:{ change (C0 z :: rev p0 ++ rev mb ++ [C1 a]) with ((C0 z :: rev p0) ++ rev mb ++ [C1 a]). rewrite <- E0', <- app_assoc. reflexivity. }
  rewrite pairs_join. apply Forall2_app.
  - change (rev (map C0 l) ++ [C0 a]) with (rev (map C0 (a :: l))). apply joins_back, side_joins.
  - pose proof (joins_back _ _ (ep_joins _ _ _ _ _ EB)) as J. cbn [rev] in J. rewrite rev_app_distr in J. exact J.
Qed.

Lemma corner_x : forall r p, In p (map (corner x0 r) (a :: l)) -> 5 / 10^6 <= sg r * (px p - x0).
Proof. intros r p I. apply in_map_iff in I. destruct I as (u & <- & U). apply (corner_side x0 (a :: l)); auto. Qed.
Lemma corner_y : forall r p, In p (map (corner x0 r) (a :: l)) -> fst a <= py p <= fst z.
Proof. intros r p I. apply in_map_iff in I. destruct I as (u & <- & U). apply heights. auto. Qed.
Lemma apart_y : forall p q : pt RA, 1 / 10^5 <= py q - py p -> apart2 p q.
Proof. intros p q H. right. rewrite Rabs_left1; lra. Qed.
Lemma st_points : ForallOrdPairs apart2 vs.
Proof.
  pose proof z_above as ZA.
  assert (TIP : forall m, In m mt -> fst z + 1 / 100 < py m) by (intros m I; apply (ep_tip _ _ _ _ _ ET m I)).
  assert (BOT : forall m, In m (rev mb) -> py m < fst a - 1 / 100) by (intros m I; apply in_rev in I; apply (ep_tip _ _ _ _ _ EB m I)).
  assert (RV : forall p, In p (rev (map (corner x0 false) (a :: l))) -> In p (map (corner x0 false) (a :: l))) by (intros p I; apply in_rev; auto).
  unfold vs. apply fop_app; [|apply fop_app; [|apply fop_app|]|].
  - apply corners_apart; auto.
  - apply (ep_apex _ _ _ _ _ ET).
  - apply fop_rev; [apply apart2_sym|]. apply corners_apart; auto.
  - apply fop_rev; [apply apart2_sym|]. apply (ep_apex _ _ _ _ _ EB).
  - intros p q I J. apply apart2_sym, apart_y. apply RV in I. pose proof (corner_y false p I). pose proof (BOT q J). lra.
  - intros p q I J. apply apart2_sym, apart_y. pose proof (TIP p I). apply in_app_or in J. destruct J as [J|J].
    + apply RV in J. pose proof (corner_y false q J). lra.
    + pose proof (BOT q J). lra.
  - intros p q I J. pose proof (corner_y true p I). apply in_app_or in J. destruct J as [J|J]; [apply apart_y; pose proof (TIP q J); lra|].
    apply in_app_or in J. destruct J as [J|J].
    + apply RV in J. pose proof (corner_x true p I). pose proof (corner_x false q J). unfold sg in *. left. rewrite Rabs_pos_eq; lra.
    + apply apart2_sym, apart_y. pose proof (BOT q J). lra.
Qed.

Lemma side_x : forall r s p, In s (side x0 r a l) -> In p (ij s) -> 5 / 10^6 <= sg r * (px p - x0) /\ fst a <= py p <= fst z.
Proof. intros r s p I J. destruct (side_ends x0 r l a s p I J) as (u & U & ->). split; [apply (corner_side x0 (a :: l)); auto|apply heights; auto]. Qed.
Lemma st_sides : forall s t, In s (side x0 true a l) -> In t (side x0 false a l) -> clear s t.
Proof.
  intros s t I J. right. right. left. intros p q P Q. destruct (side_x true s q I Q) as [X _]. destruct (side_x false t p J P) as [Y _]. unfold sg in *. lra.
Qed.
Lemma st_top : forall r s t, In s (side x0 r a l) -> In t wt -> clear s t.
Proof.
  intros r s t I J. destruct (side_high x0 r l a s RI I) as [H|H].
  - destruct (ep_half _ _ _ _ _ ET t r J) as [K|K]; [left; exists (corner x0 r z); auto|]. right.
    destruct r; [right; left|left]; intros p q P Q.
    + specialize (K p P). destruct (side_x true s q I Q) as [X _]. unfold sg in *. lra.
    + specialize (K q Q). destruct (side_x false s p I P) as [X _]. unfold sg in *. lra.
  - right. right. right. left. intros p q P Q. specialize (H p P). pose proof (ep_side _ _ _ _ _ ET t q J Q) as X. cbn [beyond] in X. fold z in H. lra.
Qed.
Lemma st_bot : forall r s t, In s (side x0 r a l) -> In t wb -> clear s t.
Proof.
  intros r s t I J. destruct (side_low x0 r l a s RI I) as [H|H].
  - destruct (ep_half _ _ _ _ _ EB t r J) as [K|K]; [left; exists (corner x0 r a); auto|]. right.
    destruct r; [right; left|left]; intros p q P Q.
    + specialize (K p P). destruct (side_x true s q I Q) as [X _]. unfold sg in *. lra.
    + specialize (K q Q). destruct (side_x false s p I P) as [X _]. unfold sg in *. lra.
  - right. right. right. right. intros p q P Q. specialize (H q Q). pose proof (ep_side _ _ _ _ _ EB t p J P) as X. cbn [beyond] in X. lra.
Qed.
Lemma st_ends : forall s t, In s wt -> In t wb -> clear s t.
Proof.
  intros s t I J. pose proof z_above. right. right. right. right. intros p q P Q.
  pose proof (ep_side _ _ _ _ _ ET s q I Q) as X. pose proof (ep_side _ _ _ _ _ EB t p J P) as Y. cbn [beyond] in *. lra.
Qed.
Lemma st_clear : forall g, Permutation g cyc -> uncrossed g.
Proof.
  intros g PG s t I J. apply (Permutation_in _ PG) in I, J.
  assert (F : ForallOrdPairs clear cyc).
  { unfold cyc. repeat apply fop_app; try (apply fop_rev; [apply clear_sym|]); try apply side_clear; try apply (ep_clear _ _ _ _ _ ET); try apply (ep_clear _ _ _ _ _ EB); auto.
    - intros u w U W. apply in_rev in U, W. apply (st_bot false); auto.
    - intros u w U W. apply in_app_or in W. destruct W as [W|W]; apply in_rev in W; [apply clear_sym; apply (st_top false); auto|apply st_ends; auto].
    - intros u w U W. apply in_app_or in W. destruct W as [W|W]; [apply (st_top true); auto|].
      apply in_app_or in W. destruct W as [W|W]; apply in_rev in W; [apply st_sides; auto|apply (st_bot true); auto]. }
  destruct (fop_any _ _ _ s t clear_sym F I J) as [->|C]; [apply ios_self|apply clear_ios; auto].
Qed.
Lemma st_ring : forall g, Permutation g cyc -> ring g.
Proof.
  intros g PG. destruct (apart2_fresh vs st_points) as [ND SE]. exists vs, cyc. split; [|split; auto; split; auto; split; auto; apply st_joins].
  unfold vs. destruct l as [|b l']; [congruence|]. cbn [map]. rewrite !app_length, rev_length. cbn [length]. lia.
Qed.
Lemma st_way : forall g, Permutation g cyc -> (exists s, In s wt /\ si s = corner x0 false z) -> ~ one_way g.
Proof.
  intros g PG (s & S1 & S2) (us & _ & NU & cy & P & MM).
  assert (Q : NoDup (map si g)).
  { apply (Permutation_NoDup (Permutation_map si (Permutation_sym P))). replace (map si cy) with us; auto.
    rewrite <- (proj1 (cycle_fst_snd _ us)), <- MM, map_map. reflexivity. }
  apply (Permutation_NoDup (Permutation_map si PG)) in Q. unfold cyc in Q. rewrite !map_app in Q.
  assert (H : exists t, In t (side x0 false a l) /\ si t = corner x0 false z).
  { clear - NE. unfold z. clear z. revert a NE. induction l as [|b l' IH]; intros a NE; [congruence|]. rewrite last_cons. destruct l' as [|c l''].
    - eexists. split; [left; reflexivity|reflexivity].
    - destruct (IH b ltac:(discriminate)) as (t & T1 & T2). exists t. split; auto. right. exact T1. }
  destruct H as (t & T1 & T2).
  assert (U1 : In (corner x0 false z) (map si wt)) by (rewrite <- S2; apply in_map; auto).
  assert (U2 : In (corner x0 false z) (map si (rev (side x0 false a l)) ++ map si (rev wb))).
  { apply in_or_app. left. rewrite <- T2. apply in_map. apply in_rev. rewrite rev_involutive. auto. }
  clear - Q U1 U2. revert Q. generalize (map si (side x0 true a l)). intros l1. induction l1 as [|x l1 IH]; cbn [app]; intros Q.
  - revert U1 Q. generalize (map si wt). intros l2. induction l2 as [|y l2 IH]; intros U1 Q; [destruct U1|]. cbn [app] in Q. inversion Q; subst.
    destruct U1 as [E|U1]; [|auto]. subst. apply H1. apply in_or_app. auto.
  - inversion Q; subst. auto.
Qed.
End Standing.

(** ** Numbering the segments part by part *)
Lemma concat_perm : forall X (l m : list (list X)), Permutation l m -> Permutation (concat l) (concat m).
Proof.
  intros X l m H. induction H; simpl; auto.
  - apply Permutation_app_head. auto.
  - rewrite !app_assoc. apply Permutation_app_tail, Permutation_app_comm.
  - eapply perm_trans; eauto.
Qed.
Lemma blocks_concat : forall X (ps : list (list X)) n, concat (blocks n ps) = seq n (length (concat ps)).
Proof. intros X ps. induction ps as [|p ps IH]; intros n; cbn [blocks concat]; [reflexivity|]. rewrite IH, app_length, seq_app. reflexivity. Qed.
Lemma value_block : forall (pre p post : list (seg RA)), MGroup.value (pre ++ p ++ post) (seq (length pre) (length p)) = p.
Proof.
  intros pre p. revert pre. induction p as [|s p IH]; intros pre post; [reflexivity|]. unfold MGroup.value. cbn [length seq flat_map].
  unfold obj at 1. rewrite nth_error_app2, Nat.sub_diag by lia. cbn [app nth_error]. f_equal.
  pose proof (IH (pre ++ [s]) post) as E. rewrite app_length in E. cbn [length] in E. rewrite Nat.add_1_r in E.
  replace (pre ++ s :: p ++ post) with ((pre ++ [s]) ++ p ++ post) by (rewrite <- app_assoc; reflexivity). exact E.
Qed.
Lemma value_blocks : forall (ps : list (list (seg RA))), map (MGroup.value (concat ps)) (blocks 0 ps) = ps.
Proof.
  intros ps. change (concat ps) with ([] ++ concat ps). change 0%nat with (@length (seg RA) []). generalize (@nil (seg RA)) as pre.
  induction ps as [|p ps IH]; intros pre; cbn [blocks concat map]; [reflexivity|]. rewrite value_block. f_equal.
  pose proof (IH (pre ++ p)) as E. rewrite app_length, <- app_assoc in E. exact E.
Qed.

Lemma side_length : forall x0 r l a, length (side x0 r a l) = length l.
Proof. intros x0 r l. induction l as [|b l IH]; intros a; simpl; auto. Qed.
Lemma side_cls : forall x0 r l a s, In s (side x0 r a l) -> sc s = CWall.
Proof. intros x0 r l. induction l as [|b l IH]; intros a s I; [destruct I|]. destruct I as [<-|I]; [destruct r; reflexivity|eauto]. Qed.

Lemma standing_ring : forall x0 bot top a l (ps : list (list (seg RA))), measured x0 (a :: l) -> rising a l -> l <> [] -> (length l <= 60)%nat ->
  Permutation ps (standing_parts x0 bot top a l) ->
  let g := concat ps in ring g /\ uncrossed g /\ ~ one_way g /\ (forall s, In s g -> sc s = CWall) /\ (length g <= 2 * length l + 4)%nat.
Proof.
  intros x0 bot top a l ps M RI NE LL PS g.
  destruct M as [D0 M0]. assert (M : measured x0 (a :: l)) by (split; auto).
  destruct (M0 a (or_introl eq_refl)) as (A1 & A2 & A3). destruct (M0 _ (last_in _ l a)) as (Z1 & Z2 & Z3).
  destruct (closing_spec x0 bot false a D0 A1 A2 A3) as (mb & wb & EB & PB & LB & CB & _).
  destruct (closing_spec x0 top true _ D0 Z1 Z2 Z3) as (mt & wt & ET & PT & LT & CT & ST).
  assert (PG : Permutation g (side x0 true a l ++ wt ++ rev (side x0 false a l) ++ rev wb)).
  { unfold g. eapply perm_trans; [apply concat_perm, PS|]. unfold standing_parts. cbn [concat].
    eapply perm_trans; [apply Permutation_app; [apply Permutation_sym, PB|apply Permutation_app; [apply Permutation_sym, PT|apply shells_perm, M]]|].
    eapply perm_trans; [apply Permutation_app_comm|]. rewrite <- !app_assoc.
    eapply perm_trans; [|apply Permutation_app_comm]. rewrite <- !app_assoc. apply Permutation_app_head.
    eapply perm_trans; [apply Permutation_app_comm|]. rewrite <- !app_assoc.
    eapply perm_trans; [|apply Permutation_app; [apply Permutation_rev|apply Permutation_app; [apply Permutation_rev|apply Permutation_refl]]].
    apply Permutation_app_head, Permutation_refl. }
  split; [|split; [|split; [|split]]].
  - eapply st_ring; eauto.
  - eapply st_clear; eauto.
  - eapply st_way; eauto.
  - intros s I. apply (Permutation_in _ PG) in I. rewrite !in_app_iff, <- !in_rev in I.
    destruct I as [I|[I|[I|I]]]; auto; eapply side_cls; eauto.
  - rewrite (Permutation_length PG), !app_length, !rev_length, !side_length.
    assert (W : forall up (c : level) ms ws, end_piece x0 up c ms ws -> length ms = 0%nat \/ length ms = 1%nat -> (length ws <= 2)%nat).
    { intros up c ms ws E H. pose proof (Forall2_len _ _ _ _ _ (ep_joins _ _ _ _ _ E)) as Q. destruct ms as [|m [|m' ms]]; simpl in *; lia. }
    pose proof (W _ _ _ _ EB ltac:(lia)). pose proof (W _ _ _ _ ET ltac:(lia)). lia.
Qed.

(*@ C98_one_room *)
(** C98: a standing vessel of up to 60 shells (cylinders and cones in any succession) with a flat end or a
    torispherical head at the bottom and at the top, its parts given in any order: raum_erstellen makes
    exactly one room, R1, without inner walls, whose outer wall consists of all the parts, whatever the
    order of the sets (provided cutting the polygon into triangles raises nothing). *)
Lemma standing_room : forall (schs : nat -> sched RA) wf fuel H HC lib inside inside2 Hs x0 bot top a l (ps : list (list (seg RA))),
  measured x0 (a :: l) -> rising a l -> l <> [] -> (length l <= 60)%nat -> Permutation ps (standing_parts x0 bot top a l) ->
  (forall k, fair (schs k)) -> ((4 * length l + 9) * (2 * length l + 5) <= wf)%nat -> (0 < fuel)%nat ->
  (forall c, rearranged c (concat ps) -> isclosed c = Ok true -> exists ts, triangle_mesh lib (fun _ _ => inside) c = Ok ts) ->
  exists walls, vessel_rooms schs wf fuel H HC lib inside inside2 Hs (blocks 0 ps) (concat ps) = Ok (Some [mkraum "R1" 0 [] [walls] []]) /\
    Forall2 (Forall2 turned) walls ps.
Proof.
  intros schs wf fuel H HC lib inside inside2 Hs x0 bot top a l ps M RI NE LL PS FS LW LF MESH.
  destruct (standing_ring x0 bot top a l ps M RI NE LL PS) as (RG & UN & NO & CW & LG).
  destruct (ring_room schs wf fuel H HC lib inside inside2 Hs (blocks 0 ps) (concat ps) FS RG) as (walls & E & T); auto.
  - lia.
  - eapply Nat.le_trans; [|exact LW]. apply Nat.mul_le_mono; lia.
  - intros s I. rewrite (CW s I). discriminate.
  - rewrite blocks_concat. apply Permutation_refl.
  - exists walls. split; auto. rewrite value_blocks in T. exact T.
Qed.

(*@ C98_loop *)
(** C98: the base of it: find_loops finds the loop of all its walls, once and closed, whatever the order of
    the sets. *)
Lemma standing_loop : forall (schs : nat -> sched RA) wf fuel x0 bot top a l (ps : list (list (seg RA))),
  measured x0 (a :: l) -> rising a l -> l <> [] -> (length l <= 60)%nat -> Permutation ps (standing_parts x0 bot top a l) ->
  (forall k, fair (schs k)) -> ((4 * length l + 9) * (2 * length l + 5) <= wf)%nat -> (0 < fuel)%nat ->
  exists c h, find_loops schs wf fuel (concat ps) = Ok (Some ([c], h)) /\ rearranged (MGroup.value h c) (concat ps) /\ isclosed (MGroup.value h c) = Ok true.
Proof.
  intros schs wf fuel x0 bot top a l ps M RI NE LL PS FS LW LF.
  destruct (standing_ring x0 bot top a l ps M RI NE LL PS) as (RG & UN & NO & CW & LG).
  apply ring_finds; auto.
  - lia.
  - eapply Nat.le_trans; [|exact LW]. apply Nat.mul_le_mono; lia.
  - intros s I. rewrite (CW s I). discriminate.
Qed.

(*@ex C98_example *)
(** C98: a vessel with a head below, a cylinder, a cone and a flat end above. *)
Lemma standing_example : measured 1 [(0, 2); (5, 2); (7, 1)] /\ rising (0, 2) [(5, 2); (7, 1)] /\
  map (@length (seg RA)) (standing_parts 1 Dome Flat (0, 2) [(5, 2); (7, 1)]) = [2; 1; 2; 2]%nat.
Proof.
  split; [|split; [cbn; lra|reflexivity]]. split; [exists 100000000%Z; lra|].
  intros a [<-|[<-|[<-|[]]]]; cbn [fst snd]; (split; [|split]); try lra.
  - exists 0%Z. lra.
  - exists 100000000%Z. lra.
  - exists 500000000%Z. lra.
  - exists 100000000%Z. lra.
  - exists 700000000%Z. lra.
  - exists 50000000%Z. lra.
Qed.
