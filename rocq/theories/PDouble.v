(** The program on binary64 numbers: stored Points, their sums and comparisons, and histories of moves
    and reflections are exact on coordinates with 8 decimals. *)
From Coq Require Import ZArith Reals Lra Lia Bool List Permutation Arith Floats.SpecFloat.
From Flocq Require Import Core BinarySingleNaN.
From Verif Require Import Base Arith ArithR ArithF MPoint MLine MPoly MHeap Spec SpecHeap SpecDouble PPoint PFlocq PHeap.
Import ListNotations.
Local Open Scope R_scope.

Lemma Rnearest_E : forall x, Rnearest x = ZnearestE x.
Proof.
  intros x. assert (I : Int_part x = Zfloor x). { symmetry. apply Zfloor_imp. destruct (Int_part_spec x) as [I1 I2]. rewrite plus_IZR. lra. }
  unfold Rnearest, Znearest. rewrite I. pose proof (Zfloor_lb x) as L. pose proof (Zfloor_ub x) as U.
  assert (C : x <> IZR (Zfloor x) -> Zceil x = (Zfloor x + 1)%Z) by (intros N; apply Zceil_floor_neq; auto).
  destruct (Rcompare_spec (x - IZR (Zfloor x)) (/ 2)) as [K|K|K]; repeat destruct (Rlt_dec _ _); try lra; try reflexivity.
  - rewrite C by lra. destruct (Z.even (Zfloor x)); reflexivity.
  - rewrite C by lra. reflexivity.
Qed.
(*@ C87_stored *)
(** C87: the Point made of two doubles stands for the exact Point made of the two real numbers they
    are: each coordinate is the double nearest to the decimal nearest to the given number. *)
Lemma stored_double : forall L (x y : F), double x -> double y ->
  stands_pt (Point_new (A := FA L) x y) (Point_new (A := RA) (value x) (value y)).
Proof.
  assert (K : forall x, double x -> stands (Fround8 x) (Rround8 (value x))).
  { intros x D. destruct (fround8 x D) as [K1 K2]. split; [exact K1|]. rewrite K2. unfold Rround8. rewrite Rnearest_E. f_equal. replace (10 ^ 8) with 100000000 by lra. reflexivity. }
  intros L x y Dx Dy. split; apply K; auto.
Qed.

(** ** Points *)
Lemma mod_x : forall q, moderate q -> Rabs (px q) <= 1000000 /\ Rabs (py q) <= 1000000.
Proof. intros q [H1 H2]. change (@px RA q) with (px q). lra. Qed.
(*@ C87_again *)
(** C87: a stored coordinate is not changed when it is stored again. *)
Lemma store_again : forall L (p : pt (FA L)) (q : pt RA), stands_pt p q -> stored q -> moderate q -> Point_new (px p) (py p) = p.
Proof.
  assert (K : forall x u, stands x u -> decimal8 u -> Rabs u <= 1000000 -> Fround8 x = x).
  { intros x u Sx D H. pose proof (st_round x u Sx D ltac:(lra)) as [K1 K2]. destruct Sx as [Dx Vx].
    destruct (Req_dec (value x) 0) as [Z|Z]; [destruct (val_zero x Dx Z) as [s ->]; reflexivity|]. symmetry. apply val_inj; auto. congruence. }
  intros L [x y] [u v] [Sx Sy] [D1 D2] M. destruct (mod_x _ M) as [M1 M2]. simpl in *. unfold Point_new. simpl. f_equal; eapply K; eauto.
Qed.
Lemma move_stands : forall L (x y : F) (u v : R) (p : pt (FA L)) (q : pt RA), stands x u -> stands y v -> decimal8 u -> decimal8 v ->
  Rabs u <= 2000000 -> Rabs v <= 2000000 -> stands_pt p q -> stored q -> moderate q -> stands_pt (move_pt (A := FA L) x y p) (translate u v q).
Proof.
  intros L x y u v [a b] [c d] Sx Sy Du Dv Hu Hv [S1 S2] [D1 D2] M. destruct (mod_x _ M) as [M1 M2]. simpl in *. split; simpl.
  - apply st_add; auto; lra.
  - apply st_add; auto; lra.
Qed.
Lemma mirror_stands : forall L (x : F) (u : R) (p : pt (FA L)) (q : pt RA), stands x u -> decimal8 u -> Rabs u <= 1000000 ->
  stands_pt p q -> stored q -> moderate q -> stands_pt (mirror_pt (A := FA L) x p) (mirror u q).
Proof.
  intros L x u [a b] [c d] Sx Du Hu [S1 S2] [D1 D2] M. destruct (mod_x _ M) as [M1 M2]. simpl in *. split; simpl.
  - apply st_mirror; auto.
  - apply st_round; auto. lra.
Qed.
(*@ C87_sum *)
(** C87: sums and differences of Points are exact. *)
Lemma sum_double : forall L (p1 p2 : pt (FA L)) (q1 q2 : pt RA), stands_pt p1 q1 -> stands_pt p2 q2 -> stored q1 -> stored q2 -> moderate q1 -> moderate q2 ->
  stands_pt (pt_add p1 p2) (@mkpt RA (px q1 + px q2) (py q1 + py q2)) /\ stands_pt (pt_sub p1 p2) (@mkpt RA (px q1 - px q2) (py q1 - py q2)).
Proof.
  intros L [x1 y1] [x2 y2] [u1 v1] [u2 v2] [S1 S2] [S3 S4] [D1 D2] [D3 D4] M M'. destruct (mod_x _ M) as [M1 M2]. destruct (mod_x _ M') as [M3 M4]. simpl in *.
  split; split; simpl; ((apply st_add; auto; lra) || (apply st_sub; auto; lra)).
Qed.
Lemma same_double : forall L (p1 p2 : pt (FA L)) (q1 q2 : pt RA), stands_pt p1 q1 -> stands_pt p2 q2 -> stored q1 -> stored q2 -> moderate q1 -> moderate q2 ->
  pt_sameb p1 p2 = pt_sameb q1 q2 /\ lex_ltb p1 p2 = lex_ltb q1 q2.
Proof.
  intros L [x1 y1] [x2 y2] [u1 v1] [u2 v2] [S1 S2] [S3 S4] [D1 D2] [D3 D4] M M'. destruct (mod_x _ M) as [M1 M2]. destruct (mod_x _ M') as [M3 M4]. simpl in *.
  unfold pt_sameb, lex_ltb. simpl. rewrite (st_eq x1 x2 u1 u2), (st_eq y1 y2 v1 v2), (st_lt x1 x2 u1 u2), (st_lt y1 y2 v1 v2) by (auto; lra). split; reflexivity.
Qed.
Lemma tol_double : forall L, double (pt_tol (A := FA L)) /\ 99 / 10 ^ 7 <= value (pt_tol (A := FA L)) <= 1001 / 10 ^ 8 - 2 / 10 ^ 9.
Proof.
  intros L. replace (pt_tol (A := FA L)) with (S754_finite false 5902958103587057 (-69)) by (vm_compute; reflexivity). split; [split; reflexivity|]. unfold value. simpl. unfold F2R. simpl. lra.
Qed.
Lemma near_double : forall L (p1 p2 : pt (FA L)) (q1 q2 : pt RA), stands_pt p1 q1 -> stands_pt p2 q2 -> stored q1 -> stored q2 -> moderate q1 -> moderate q2 ->
  clear_of q1 q2 -> pt_eqb p1 p2 = pt_eqb q1 q2.
Proof.
  intros L [x1 y1] [x2 y2] [u1 v1] [u2 v2] [S1 S2] [S3 S4] [D1 D2] [D3 D4] M M' C. destruct (mod_x _ M) as [M1 M2]. destruct (mod_x _ M') as [M3 M4]. simpl in *.
  destruct (tol_double L) as [TF TV]. set (t := pt_tol (A := FA L)) in *.
  assert (TR : pt_tol (A := RA) = 1 / 10 ^ 5) by (unfold pt_tol, EPS; simpl; field).
  assert (Z : forall x y u, stands x u -> stands y u -> Rabs u <= 1000000 -> SFltb (SFabs (Fsub x y)) t = true).
  { intros x y u Sx Sy H. assert (E : value x - value y = 0) by (rewrite (proj2 Sx), (proj2 Sy); lra). destruct (fsub x y (proj1 Sx) (proj1 Sy)) as [K1 K2].
    - apply big. rewrite E, Rabs_R0. lra.
    - destruct (fabs _ K1) as [L1 L2]. rewrite fltb by auto. apply Rlt_bool_true. rewrite L2, K2, E. unfold nearest. rewrite round_0 by apply valid_rnd_N. rewrite Rabs_R0. lra. }
  assert (Fa : forall x y u v, stands x u -> stands y v -> decimal8 u -> decimal8 v -> Rabs u <= 1000000 -> Rabs v <= 1000000 -> 1 / 10 ^ 5 < Rabs (u - v) -> SFltb (SFabs (Fsub x y)) t = false).
  { intros x y u v Sx Sy Du Dv Hu Hv H. pose proof (st_err x u Sx ltac:(lra)) as Ex. pose proof (st_err y v Sy ltac:(lra)) as Ey.
    assert (B : Rabs (value x - value y) <= 4194304) by small. destruct (fsub x y (proj1 Sx) (proj1 Sy) (big _ B)) as [K1 K2]. pose proof (rnd_err _ B) as E. rewrite <- K2 in E.
    destruct (fabs _ K1) as [L1 L2]. rewrite fltb by auto. apply Rlt_bool_false. rewrite L2.
    assert (G : 1001 / 10 ^ 8 <= Rabs (u - v)).
    { destruct Du as [a ->]. destruct Dv as [b ->]. replace (IZR a / 10 ^ 8 - IZR b / 10 ^ 8) with (IZR (a - b) * / 10 ^ 8) in * by (rewrite minus_IZR; field). rewrite Rabs_mult, (Rabs_pos_eq (/ 10 ^ 8)), <- abs_IZR in * by lra.
      assert (IZR 1000 < IZR (Z.abs (a - b))) as K by lra. apply lt_IZR in K. assert (1001 <= Z.abs (a - b))%Z as K' by lia. apply IZR_le in K'. lra. }
    assert (T : Rabs (u - v) <= Rabs (value (Fsub x y)) + 3 * eps).
    { apply Rabs_le_inv in Ex, Ey, E. unfold Rabs. destruct (Rcase_abs (u - v)), (Rcase_abs (value (Fsub x y))); lra. }
    unfold eps in T. lra. }
  assert (EF : pt_eqb (@mkpt (FA L) x1 y1) (@mkpt (FA L) x2 y2) = SFltb (SFabs (Fsub x1 x2)) t && SFltb (SFabs (Fsub y1 y2)) t) by reflexivity.
  assert (ER : pt_eqb (@mkpt RA u1 v1) (@mkpt RA u2 v2) = Rltb (Rabs (u1 - u2)) (1 / 10 ^ 5) && Rltb (Rabs (v1 - v2)) (1 / 10 ^ 5)) by (rewrite <- TR; reflexivity).
  rewrite EF, ER. clear EF ER. destruct C as [C|C]; simpl in C.
  - injection C as -> ->. rewrite (Z x1 x2 u2), (Z y1 y2 v2) by auto. symmetry. apply andb_true_iff. split; apply Rltb_true; rewrite Rminus_diag_eq, Rabs_R0 by reflexivity; lra.
  - assert (RHS : (Rltb (Rabs (u1 - u2)) (1 / 10 ^ 5) && Rltb (Rabs (v1 - v2)) (1 / 10 ^ 5)) = false).
    { apply andb_false_iff. destruct C as [C|C]; [left|right]; apply Rltb_false; lra. }
    rewrite RHS. apply andb_false_iff. destruct C as [C|C]; [left; apply (Fa x1 x2 u1 u2)|right; apply (Fa y1 y2 v1 v2)]; auto.
Qed.
(*@ C87_compare *)
(** C87: two stored Points are the same (as members of a set) exactly if they stand for the same exact
    Point, they are sorted as these, and == answers the same question if these are identical or more
    than 1e-5 apart. *)
Lemma compare_double : forall L (p1 p2 : pt (FA L)) (q1 q2 : pt RA), stands_pt p1 q1 -> stands_pt p2 q2 -> stored q1 -> stored q2 -> moderate q1 -> moderate q2 ->
  (pt_sameb p1 p2 = true <-> q1 = q2) /\ (lex_ltb p1 p2 = true <-> px q1 < px q2 \/ px q1 = px q2 /\ py q1 < py q2) /\
  (clear_of q1 q2 -> (pt_eqb p1 p2 = true <-> q1 = q2)).
Proof.
  intros L p1 p2 q1 q2 S1 S2 D1 D2 M1 M2. destruct (same_double L p1 p2 q1 q2 S1 S2 D1 D2 M1 M2) as [E1 E2]. rewrite E1, E2. split; [apply pt_sameb_iff|]. split.
  - unfold lex_ltb. simpl. unfold Reqb. destruct (Req_EM_T (px q1) (px q2)) as [E|E]; rewrite Rltb_true; [rewrite E|]; split; intros H.
    + right. auto.
    + destruct H as [H|[_ H]]; [lra|exact H].
    + left. exact H.
    + destruct H as [H|[H _]]; [exact H|]. contradiction.
  - intros C. rewrite (near_double L p1 p2 q1 q2) by auto. split; [|intros ->; apply pt_eqb_refl]. intros H. destruct C as [C|C]; [exact C|exfalso].
    unfold pt_eqb in H. apply andb_true_iff in H. destruct H as [H1 H2]. ra_simpl. apply Rltb_true in H1, H2. unfold pt_tol, EPS in *. ra_simpl. lra.
Qed.
(*@ C87_undo *)
(** C87: adding a Point and subtracting it again restores the Point. *)
Lemma undo_double : forall L (p1 p2 : pt (FA L)) (q1 q2 : pt RA), stands_pt p1 q1 -> stands_pt p2 q2 -> stored q1 -> stored q2 -> moderate q1 -> moderate q2 ->
  moderate (@mkpt RA (px q1 + px q2) (py q1 + py q2)) -> pt_sameb (pt_sub (pt_add p1 p2) p2) p1 = true.
Proof.
  intros L p1 p2 q1 q2 S1 S2 D1 D2 M1 M2 M. destruct (sum_double L p1 p2 q1 q2 S1 S2 D1 D2 M1 M2) as [A _].
  assert (D : stored (@mkpt RA (px q1 + px q2) (py q1 + py q2))) by (destruct D1, D2; split; simpl; apply d8_add; auto).
  destruct (sum_double L _ p2 _ q2 A S2 D D2 M M2) as [_ B]. simpl in B.
  assert (E : @mkpt RA (px q1 + px q2 - px q2) (py q1 + py q2 - py q2) = q1) by (destruct q1 as [u v]; simpl; f_equal; ra_simpl; lra).
  rewrite E in B. apply (compare_double L _ p1 q1 q1); auto.
Qed.

(** ** The same decisions lead to the same polygon *)
Lemma insert_ext : forall X (f g : X -> X -> bool) x l, (forall a, In a l -> f a x = g a x) -> insert_sorted f x l = insert_sorted g x l.
Proof.
  induction l as [|y l IH]; intros H; simpl; auto. rewrite (H y) by (left; auto). destruct (g y x); [|reflexivity]. f_equal. apply IH. intros a I. apply H. right; auto.
Qed.
Lemma sort_ext : forall X (f g : X -> X -> bool) l, (forall a b, In a l -> In b l -> f a b = g a b) -> sort_by f l = sort_by g l.
Proof.
  induction l as [|x l IH]; intros H; simpl; auto. rewrite IH by (intros; apply H; right; auto). apply insert_ext. intros a I. apply H; [|left; auto]. right. apply (Permutation_in _ (sort_by_perm _ g l) I).
Qed.
Lemma memb_ext : forall X (f g : X -> X -> bool) x l, (forall a, In a l -> f a x = g a x) -> memb f x l = memb g x l.
Proof. induction l as [|y l IH]; intros H; simpl; auto. rewrite (H y) by (left; auto). rewrite IH; auto. intros a I. apply H. right; auto. Qed.
Lemma dedup_acc_ext : forall X (f g : X -> X -> bool) l acc, (forall a b, In a (l ++ acc) -> In b (l ++ acc) -> f a b = g a b) -> dedup_acc f l acc = dedup_acc g l acc.
Proof.
  induction l as [|x l IH]; intros acc H; simpl; auto. rewrite (memb_ext _ f g x acc).
  - destruct (memb g x acc); apply IH; intros a b Ia Ib; apply H; simpl; repeat (rewrite in_app_iff in *; simpl in *); tauto.
  - intros a I. apply H; simpl; [right; apply in_app_iff; auto|left; auto].
Qed.
Definition agree {L} (hf : heap (FA L)) (h : heap RA) (S : list nat) : Prop :=
  forall a b, In a S -> In b S -> pt_sameb (hf a) (hf b) = pt_sameb (h a) (h b) /\ lex_ltb (hf a) (hf b) = lex_ltb (h a) (h b) /\ pt_eqb (hf a) (hf b) = pt_eqb (h a) (h b).
Lemma hall_ext : forall L (hf : heap (FA L)) (h : heap RA) l, agree hf h (objects l) -> hall_points hf l = hall_points h l.
Proof. intros L hf h l A. unfold hall_points. apply sort_ext. intros a b Ia Ib. apply A; auto. Qed.
Lemma hset_ext : forall L (hf : heap (FA L)) (h : heap RA) l, agree hf h (objects l) -> hpoint_set hf l = hpoint_set h l.
Proof.
  intros L hf h l A. unfold hpoint_set. rewrite (hall_ext L hf h l A). assert (I : incl (hall_points h l) (objects l)) by (intros o I; apply (Permutation_in _ (hall_perm h l) I)).
  assert (E : dedup (fun a b => pt_sameb (hf a) (hf b)) (hall_points h l) = dedup (fun a b => pt_sameb (h a) (h b)) (hall_points h l)).
  { apply dedup_acc_ext. intros a b Ia Ib. rewrite app_nil_r in *. apply A; auto. }
  rewrite E. apply sort_ext. intros a b Ia Ib. apply dedup_acc_incl in Ia as [Ia|[]]. apply dedup_acc_incl in Ib as [Ib|[]]. apply A; auto.
Qed.
Lemma pass_ext : forall L (hf : heap (FA L)) (h : heap RA) O x f, agree hf h O -> In x O -> In f O -> forall l cur, In cur O -> incl (objects l) O ->
  purge_pass hf x f cur l = purge_pass h x f cur l /\ incl (objects (purge_pass h x f cur l)) O.
Proof.
  intros L hf h O x f A Ix If. induction l as [|s l IH]; intros cur Ic I; [split; [reflexivity|intros o []]|]. cbn [purge_pass].
  assert (Ii : In (hi s) O) by (apply I; left; auto). assert (Ij : In (hj s) O) by (apply I; right; left; auto).
  assert (Il : incl (objects l) O) by (intros o J; apply I; right; right; exact J).
  assert (E : existsb (fun e => Nat.eqb e x || pt_eqb (hf e) (hf x)) (hij s) = existsb (fun e => Nat.eqb e x || pt_eqb (h e) (h x)) (hij s)).
  { simpl. rewrite (proj2 (proj2 (A _ _ Ii Ix))), (proj2 (proj2 (A _ _ Ij Ix))). reflexivity. }
  rewrite E, (proj2 (proj2 (A _ _ Ii Ic))). clear E. destruct (existsb (fun e => Nat.eqb e x || pt_eqb (h e) (h x)) (hij s)).
  - destruct (IH f If Il) as [-> K]. split; [reflexivity|]. intros o J. unfold objects in J. simpl in J. destruct (pt_eqb (h (hi s)) (h cur)); simpl in J; destruct J as [<-|[<-|J]]; auto.
  - destruct (IH cur Ic Il) as [-> K]. split; [reflexivity|]. intros o [<-|[<-|J]]; auto.
Qed.
Lemma step_ext : forall L (hf : heap (FA L)) (h : heap RA) O, agree hf h O -> forall T st, incl T O -> incl (fst st) O -> incl (objects (snd st)) O ->
  fold_left (purge_step hf) T st = fold_left (purge_step h) T st.
Proof.
  intros L hf h O A. induction T as [|x T IH]; intros [seen l] IR IS IL; [reflexivity|]. simpl in IS, IL. cbn [fold_left].
  assert (Ix : In x O) by (apply IR; left; auto). assert (IR' : incl T O) by (intros o J; apply IR; right; auto).
  assert (E : filter (fun y => pt_eqb (hf x) (hf y)) seen = filter (fun y => pt_eqb (h x) (h y)) seen) by (apply filter_ext_in; intros y Iy; apply A; auto).
  assert (G : purge_step hf (seen, l) x = purge_step h (seen, l) x /\ incl (fst (purge_step h (seen, l) x)) O /\ incl (objects (snd (purge_step h (seen, l) x))) O).
  { unfold purge_step. rewrite E. destruct (filter (fun y => pt_eqb (h x) (h y)) seen) as [|f r] eqn:EF.
    - split; [reflexivity|]. split; [|exact IL]. simpl. intros o J. apply in_app_iff in J as [J|[<-|[]]]; auto.
    - assert (If : In f O). { apply IS. assert (J : In f (f :: r)) by (left; auto). rewrite <- EF in J. apply filter_In in J. apply J. }
      destruct (pass_ext L hf h O x f A Ix If l x Ix IL) as [-> K]. auto. }
  destruct G as (-> & G1 & G2). apply IH; auto.
Qed.
Lemma purge_ext : forall L (hf : heap (FA L)) (h : heap RA) P, agree hf h (objects (hsegs P)) -> purge hf P = purge h P.
Proof.
  intros L hf h P A. unfold purge. rewrite (hall_ext L hf h _ A), (hset_ext L hf h _ A). destruct (hpurged P); [reflexivity|]. destruct (Nat.eqb _ _); [reflexivity|].
  rewrite (step_ext L hf h (objects (hsegs P)) A); [reflexivity| | |].
  - intros o I. apply (Permutation_in _ (hall_perm h _) I).
  - intros o [].
  - apply incl_refl.
Qed.
Lemma fold_hset_any : forall (A : Arith) (f : pt A -> pt A) os (h : heap A), NoDup os ->
  forall o, (In o os -> fold_left (fun h o => hset h o (f (h o))) os h o = f (h o)) /\
            (~ In o os -> fold_left (fun h o => hset h o (f (h o))) os h o = h o).
Proof.
  intros A f os. induction os as [|a os IH]; intros h N o; simpl; [tauto|].
  inversion N; subst. destruct (IH (hset h a (f (h a))) H2 o) as [I1 I2]. unfold hset in *.
  destruct (Nat.eqb_spec o a) as [->|Ne].
  - split; [intros _; rewrite I2 by auto; reflexivity|intros C; exfalso; apply C; auto].
  - split; [intros [C|C]; [congruence|auto]|intros C; apply I2; tauto].
Qed.
(** One transformation: the same polygon results, and the Points stand for the exact ones. *)
Lemma transform_double : forall L (ff : pt (FA L) -> pt (FA L)) (fr : pt RA -> pt RA) (hf : heap (FA L)) (h : heap RA) (P : hpoly) (O : list nat),
  agree hf h (objects (hsegs P)) -> incl (objects (hsegs (purge h P))) (objects (hsegs P)) ->
  (forall o, In o O -> stands_pt (hf o) (h o)) ->
  (forall o, In o (objects (hsegs P)) -> stands_pt (ff (hf o)) (fr (h o))) ->
  let '(hf', Pf') := transform ff hf P in let '(h', P') := transform fr h P in
  Pf' = P' /\ (forall o, In o O -> stands_pt (hf' o) (h' o)) /\ (forall o, ~ In o (objects (hsegs P)) -> hf' o = hf o).
Proof.
  intros L ff fr hf h P O A I S1 S2. unfold transform. rewrite (purge_ext L hf h P A).
  assert (A' : agree hf h (objects (hsegs (purge h P)))) by (intros a b Ia Ib; apply A; auto). rewrite (hset_ext L hf h _ A').
  destruct (hpoint_set_spec h (hsegs (purge h P))) as (I1 & _ & N). apply NoDup_map_inv in N. set (os := hpoint_set h (hsegs (purge h P))) in *.
  split; [reflexivity|]. split; intros o Io; pose proof (fold_hset_any _ ff os hf N o) as [F1 F2]; pose proof (fold_hset_any _ fr os h N o) as [R1 R2].
  - destruct (in_dec Nat.eq_dec o os) as [K|K]; [rewrite F1, R1 by exact K; apply S2; auto|rewrite F2, R2 by exact K; auto].
  - apply F2. intros K. apply Io. apply I, I1, K.
Qed.

(** ** Histories *)
Definition dstep_pt {L} (d : dstep) : pt (FA L) -> pt (FA L) :=
  match d with DShift u v => move_pt (A := FA L) u v | DFlip x0 => mirror_pt (A := FA L) x0 end.
Lemma run_dsteps_cons : forall L d r (hf : heap (FA L)) P, run_dsteps (d :: r) hf P = let '(hf', P') := transform (dstep_pt d) hf P in run_dsteps r hf' P'.
Proof. intros L [u v|x0] r hf P; reflexivity. Qed.
Lemma stands_step_pt : forall L d t (p : pt (FA L)) (q : pt RA), stands_step d t -> step_decimal8 t -> stands_pt p q -> stored q -> moderate q -> moderate (step_image t q) ->
  stands_pt (dstep_pt d p) (step_pt t q).
Proof.
  intros L [x y|x] [u v|u] p q Sd Dd Sp Dq Mq Mi; simpl in Sd; try contradiction; simpl dstep_pt; simpl step_pt.
  - destruct Sd as [Sx Sy]. destruct Dd as [Du Dv]. rewrite move_pt_exact by auto. destruct (mod_x _ Mq) as [M1 M2]. destruct (mod_x _ Mi) as [M3 M4]. destruct q as [a b]. simpl in *. apply move_stands; auto; small.
  - rewrite mirror_pt_exact by auto. destruct (mod_x _ Mq) as [M1 M2]. destruct (mod_x _ Mi) as [M3 M4]. destruct q as [a b]. simpl in *. apply mirror_stands; auto. small.
Qed.
Lemma clear_step : forall t p q, clear_of p q -> clear_of (step_image t p) (step_image t q).
Proof.
  intros t p q [->|C]; [left; reflexivity|right]. destruct p as [a b], q as [c d]. destruct t as [u v|u]; simpl in *.
  - replace (a + u - (c + u)) with (a - c) by lra. replace (b + v - (d + v)) with (b - d) by lra. exact C.
  - replace (2 * u - a - (2 * u - c)) with (- (a - c)) by lra. rewrite Rabs_Ropp. exact C.
Qed.
Lemma view_objects : forall (f : pt RA -> pt RA) (h h' : heap RA) l l', view h' l' = map (seg_image f) (view h l) ->
  forall o, In o (objects l') -> exists o', In o' (objects l) /\ h' o = f (h o').
Proof.
  intros f h h' l l' V o I. assert (J : In (h' o) (map h' (objects l'))) by (apply in_map; auto). rewrite <- ends_view, V in J.
  apply in_flat_map in J as (s & Is & K). apply in_map_iff in Is as (s0 & <- & Is). unfold view in Is. apply in_map_iff in Is as (g & <- & Ig).
  simpl in K. destruct K as [K|[K|[]]]; [exists (hi g)|exists (hj g)]; (split; [apply In_objects; exists g; auto|symmetry; exact K]).
Qed.
Lemma history_sim : forall L ts ds (hf : heap (FA L)) (h : heap RA) (P : hpoly) (O : list nat),
  sound h P -> all_stored h (hsegs P) -> Forall step_decimal8 ts -> Forall2 stands_step ds ts ->
  (forall a b, In a (objects (hsegs P)) -> In b (objects (hsegs P)) -> clear_of (h a) (h b)) ->
  incl (objects (hsegs P)) O -> (forall o, In o O -> stands_pt (hf o) (h o)) ->
  (forall k o, In o (objects (hsegs P)) -> moderate (place_after (firstn k ts) (h o))) ->
  let '(hf', Pf') := run_dsteps ds hf P in let '(h', P') := run_steps ts h P in
  Pf' = P' /\ incl (objects (hsegs P')) O /\ (forall o, In o O -> stands_pt (hf' o) (h' o)) /\ (forall o, ~ In o (objects (hsegs P)) -> hf' o = hf o).
Proof.
  intros L ts. induction ts as [|t ts IH]; intros ds hf h P O SO AS D8 F2 CL IO ST MO.
  - inversion F2; subst. simpl. auto.
  - inversion F2 as [|d t0 ds' ts0 Sd F2']; subst. assert (Dt : step_decimal8 t) by (inversion D8; auto). assert (D8' : Forall step_decimal8 ts) by (inversion D8; auto). rewrite run_dsteps_cons, run_steps_cons.
    assert (M0 : forall o, In o (objects (hsegs P)) -> moderate (h o)) by (intros o Io; apply (MO 0%nat o Io)).
    assert (M1 : forall o, In o (objects (hsegs P)) -> moderate (step_image t (h o))) by (intros o Io; apply (MO 1%nat o Io)).
    assert (AG : agree hf h (objects (hsegs P))).
    { intros a b Ia Ib. destruct (same_double L (hf a) (hf b) (h a) (h b)) as [E1 E2]; auto. split; [exact E1|]. split; [exact E2|]. apply near_double; auto. }
    pose proof (step_spec t h P SO AS Dt) as T. destruct (purge_sound h P SO) as (_ & PI & _).
    pose proof (transform_double L (dstep_pt d) (step_pt t) hf h P O AG PI ST) as X.
    destruct (transform (dstep_pt d) hf P) as [hf1 Pf1]. destruct (transform (step_pt t) h P) as [h1 P1]. destruct T as (V1 & F1 & I1 & _ & S1 & A1).
    destruct X as (-> & X1 & X2). { intros o Io. apply stands_step_pt; auto. }
    assert (VO := view_objects (step_image t) h h1 _ _ V1).
    specialize (IH ds' hf1 h1 P1 O S1 A1 D8' F2').
    destruct (run_dsteps ds' hf1 P1) as [hf2 Pf2]. destruct (run_steps ts h1 P1) as [h2 P2]. destruct IH as (-> & IO2 & ST2 & U2).
    + intros a b Ia Ib. destruct (VO a Ia) as (a' & Ia' & ->). destruct (VO b Ib) as (b' & Ib' & ->). apply clear_step. auto.
    + intros o Io. apply IO. apply I1. exact Io.
    + exact X1.
    + intros k o Io. destruct (VO o Io) as (o' & Io' & ->). apply (MO (S k) o' Io').
    + split; [reflexivity|]. split; [exact IO2|]. split; [exact ST2|]. intros o No. rewrite U2; [apply X2; exact No|]. intros K. apply No, I1, K.
Qed.
Lemma Forall2_view : forall L (hf : heap (FA L)) (h : heap RA) l, (forall o, In o (objects l) -> stands_pt (hf o) (h o)) -> Forall2 stands_seg (view hf l) (view h l).
Proof.
  induction l as [|s l IH]; intros H; constructor; [|apply IH; intros o I; apply H; right; right; exact I]. split; [reflexivity|]. split; apply H; [left|right; left]; reflexivity.
Qed.
(*@ C87_history *)
(** C87: the running program carries out any history of moves and reflections by decimals exactly: each
    end point of each segment becomes the double nearest to the true place of its exact counterpart,
    and the polygon has the same segments and shares the same Point objects as in exact arithmetic. *)
Lemma history_double : forall L (ts : list step) (ds : list dstep) (hf : heap (FA L)) (h : heap RA) (P : hpoly),
  sound h P -> all_stored h (hsegs P) -> Forall step_decimal8 ts -> Forall2 stands_step ds ts ->
  (forall a b, In a (objects (hsegs P)) -> In b (objects (hsegs P)) -> clear_of (h a) (h b)) ->
  (forall o, In o (objects (hsegs P)) -> stands_pt (hf o) (h o)) ->
  (forall k o, In o (objects (hsegs P)) -> moderate (place_after (firstn k ts) (h o))) ->
  let '(hf', Pf') := run_dsteps ds hf P in
  Forall2 stands_seg (view hf' (hsegs Pf')) (map (seg_image (place_after ts)) (view h (hsegs P))) /\
  Pf' = snd (run_steps ts h P) /\ (forall o, ~ In o (objects (hsegs P)) -> hf' o = hf o).
Proof.
  intros L ts ds hf h P SO AS D8 F2 CL ST MO. pose proof (history_sim L ts ds hf h P (objects (hsegs P)) SO AS D8 F2 CL (incl_refl _) ST MO) as X. pose proof (history ts h P SO AS D8) as Y.
  destruct (run_dsteps ds hf P) as [hf' Pf']. destruct (run_steps ts h P) as [h' P']. destruct X as (-> & X1 & X2 & X3). destruct Y as (Y1 & _). split; [|split; [reflexivity|exact X3]].
  unfold place_after. rewrite <- Y1. apply Forall2_view. intros o Io. apply X2, X1, Io.
Qed.

(** Two segments with the same class and, for ==, the same coordinates. *)
Lemma nearest_opp_R : forall u, rnd (- u) = - rnd u.
Proof. intros u. unfold nearest. apply round_NE_opp. Qed.
(*@ C87_opposite *)
(** C87: the opposite of a double stands for the opposite of the decimal. *)
Lemma stands_opp : forall (x : F) (u : R), stands x u -> stands (SFopp x) (- u).
Proof. intros x u [D V]. destruct (fopp x D) as [K1 K2]. split; [exact K1|]. rewrite K2, V, nearest_opp_R. reflexivity. Qed.
(*@ C87_restored *)
(** C87: a history that leads every end point back to its place restores the polygon of the running
    program: every coordinate is the same number again. *)
Lemma restored_double : forall L (ts : list step) (ds : list dstep) (hf : heap (FA L)) (h : heap RA) (P : hpoly),
  sound h P -> all_stored h (hsegs P) -> Forall step_decimal8 ts -> Forall2 stands_step ds ts ->
  (forall a b, In a (objects (hsegs P)) -> In b (objects (hsegs P)) -> clear_of (h a) (h b)) ->
  (forall o, In o (objects (hsegs P)) -> stands_pt (hf o) (h o)) ->
  (forall k o, In o (objects (hsegs P)) -> moderate (place_after (firstn k ts) (h o))) ->
  (forall o, In o (objects (hsegs P)) -> place_after ts (h o) = h o) ->
  let '(hf', Pf') := run_dsteps ds hf P in
  Forall2 (fun s s' : seg (FA L) => sc s' = sc s /\ pt_sameb (si s') (si s) = true /\ pt_sameb (sj s') (sj s) = true) (view hf (hsegs P)) (view hf' (hsegs Pf')).
Proof.
  intros L ts ds hf h P SO AS D8 F2 CL ST MO BK. pose proof (history_double L ts ds hf h P SO AS D8 F2 CL ST MO) as X. destruct (run_dsteps ds hf P) as [hf' Pf']. destruct X as (X & _).
  assert (M0 : forall o, In o (objects (hsegs P)) -> moderate (h o)) by (intros o Io; apply (MO 0%nat o Io)).
  assert (K : forall o p', In o (objects (hsegs P)) -> stands_pt p' (place_after ts (h o)) -> pt_sameb p' (hf o) = true).
  { intros o p' Io Sp. rewrite BK in Sp by exact Io. apply (compare_double L p' (hf o) (h o) (h o)); auto. }
  assert (J : forall l m, incl (objects l) (objects (hsegs P)) -> Forall2 stands_seg m (map (seg_image (place_after ts)) (view h l)) ->
    Forall2 (fun s s' : seg (FA L) => sc s' = sc s /\ pt_sameb (si s') (si s) = true /\ pt_sameb (sj s') (sj s) = true) (view hf l) m).
  { induction l as [|s l IH]; intros m I H; simpl in H; inversion H as [|a b c d Hs Ht]; subst; [constructor|]. constructor.
    - destruct Hs as (H1 & H2 & H3). split; [exact H1|]. split; apply K; auto; apply I; [left|right; left]; reflexivity.
    - apply IH; auto. intros o Io. apply I. right; right; exact Io. }
  apply J; [apply incl_refl|exact X].
Qed.

(** ** Examples and limits *)
Lemma stands_dec : forall x k, double x -> Fround8 x = x -> Rabs (IZR k - value x * 100000000) < 1 / 2 -> stands x (IZR k / 100000000).
Proof. intros x k D E H. assert (S1 := proj1 (stored_double (Build_Libm (fun a => a) (fun a => a) (fun a => a) (fun a _ => a)) x x D D)). simpl in S1. rewrite E in S1. unfold Rround8 in S1. rewrite (Rnearest_unique _ k H) in S1. exact S1. Qed.
Ltac sdec k := apply (stands_dec _ k); [split; reflexivity|vm_compute; reflexivity|unfold value; simpl; unfold F2R; simpl; apply Rabs_def1; lra].
(** A triangle with corners (0, 0), (1/10, 0), (1/10, 3/10), each stored in two Point objects, in exact
    and in binary64 arithmetic, and a history of decimal steps. *)
Definition tenths (k : nat) : Z * Z := match k with 0%nat | 5%nat => (0, 0)%Z | 1%nat | 2%nat => (1, 0)%Z | 3%nat | 4%nat => (1, 3)%Z | _ => (7, 7)%Z end.
Definition ten_heap (k : nat) : pt RA := @mkpt RA (IZR (fst (tenths k)) / 10) (IZR (snd (tenths k)) / 10).
Definition ten_dheap (L : Libm) (k : nat) : pt (FA L) := @mkpt (FA L) (Fdec (fst (tenths k)) 10) (Fdec (snd (tenths k)) 10).
Definition ten_poly : hpoly := mkhp [mkh CLineSegment 0 1; mkh CWall 2 3; mkh CLineSegment 4 5] false.
Definition ten_steps : list step := [Shift (2 / 10) (- 7 / 10); Flip (3 / 10)].
Definition ten_dsteps : list dstep := [DShift (Fdec 2 10) (Fdec (-7) 10); DFlip (Fdec 3 10)].
Lemma ten_points : forall o, In o (objects (hsegs ten_poly)) -> ten_heap o = @mkpt RA 0 0 \/ ten_heap o = @mkpt RA (1 / 10) 0 \/ ten_heap o = @mkpt RA (1 / 10) (3 / 10).
Proof.
  assert (Z : 0 / 10 = 0) by lra. intros o I. simpl in I. unfold ten_heap.
  repeat (destruct I as [<-|I]; [simpl; rewrite ?Z; auto|]). destruct I.
Qed.
Lemma ten_clear : forall a b, In a (objects (hsegs ten_poly)) -> In b (objects (hsegs ten_poly)) -> clear_of (ten_heap a) (ten_heap b).
Proof.
  intros a b Ia Ib. destruct (ten_points a Ia) as [->|[->| ->]]; destruct (ten_points b Ib) as [->|[->| ->]]; unfold clear_of; simpl; try (left; reflexivity); right.
  all: try (left; unfold Rabs; destruct (Rcase_abs _); lra).
  all: right; unfold Rabs; destruct (Rcase_abs _); lra.
Qed.
Lemma d8_tenth : forall k, decimal8 (IZR k / 10).
Proof. intros k. exists (k * 10000000)%Z. rewrite mult_IZR. simpl. lra. Qed.
Lemma ten_stands : forall L o, stands_pt (ten_dheap L o) (ten_heap o).
Proof.
  intros L o. unfold ten_dheap, ten_heap, stands_pt. simpl.
  assert (Z0 : stands (Fdec 0 10) (0 / 10)) by (replace (0 / 10) with (0 / 100000000) by lra; sdec 0%Z).
  assert (Z1 : stands (Fdec 1 10) (1 / 10)) by (replace (1 / 10) with (10000000 / 100000000) by lra; sdec 10000000%Z).
  assert (Z3 : stands (Fdec 3 10) (3 / 10)) by (replace (3 / 10) with (30000000 / 100000000) by lra; sdec 30000000%Z).
  assert (Z7 : stands (Fdec 7 10) (7 / 10)) by (replace (7 / 10) with (70000000 / 100000000) by lra; sdec 70000000%Z).
  do 6 (destruct o as [|o]; [simpl; auto|]). simpl. auto.
Qed.
(*@ex C87_example *)
(** C87: the hypotheses hold for the triangle; 1/10 + 2/10 is stored as the double nearest to 3/10,
    which the sum of the doubles is not. *)
Lemma double_example : forall L : Libm,
  sound ten_heap ten_poly /\ all_stored ten_heap (hsegs ten_poly) /\ Forall step_decimal8 ten_steps /\ Forall2 stands_step ten_dsteps ten_steps /\
  (forall a b, In a (objects (hsegs ten_poly)) -> In b (objects (hsegs ten_poly)) -> clear_of (ten_heap a) (ten_heap b)) /\
  (forall o, In o (objects (hsegs ten_poly)) -> stands_pt (ten_dheap L o) (ten_heap o)) /\
  (forall k o, In o (objects (hsegs ten_poly)) -> moderate (place_after (firstn k ten_steps) (ten_heap o))) /\
  SFeqb (Fadd (Fdec 1 10) (Fdec 2 10)) (Fdec 3 10) = false /\
  let '(h, P) := run_dsteps [DShift (Fdec 2 10) (Fdec (-7) 10)] (ten_dheap L) ten_poly in
  map (fun s => (px (si s), py (si s))) (view h (hsegs P)) = [(Fdec 2 10, Fdec (-7) 10); (Fdec 3 10, Fdec (-7) 10); (Fdec 3 10, Fdec (-4) 10)].
Proof.
  intros L. assert (ST : all_stored ten_heap (hsegs ten_poly)).
  { intros o I. split; apply d8_tenth. }
  split; [|split; [exact ST|]].
  - split; [|split; [|discriminate]].
    + intros p q Ip Iq X Y. apply in_map_iff in Ip as (a & <- & Ia). apply in_map_iff in Iq as (b & <- & Ib). destruct (ten_clear a b Ia Ib) as [C|[C|C]]; [exact C|ra_simpl; lra|ra_simpl; lra].
    + intros s I. simpl in I. destruct I as [<-|[<-|[<-|[]]]]; intros E; injection E; simpl; lra.
  - assert (Z2 : stands (Fdec 2 10) (2 / 10)) by (replace (2 / 10) with (20000000 / 100000000) by lra; sdec 20000000%Z).
    assert (Z3 : stands (Fdec 3 10) (3 / 10)) by (replace (3 / 10) with (30000000 / 100000000) by lra; sdec 30000000%Z).
    assert (Z7 : stands (Fdec (-7) 10) (- 7 / 10)) by (replace (- 7 / 10) with (-70000000 / 100000000) by lra; sdec (-70000000)%Z).
    split; [repeat constructor; simpl; apply d8_tenth|].
    split; [constructor; [split; auto|constructor; [exact Z3|constructor]]|]. split; [exact ten_clear|]. split; [intros o _; apply ten_stands|].
    split; [|split; [vm_compute; reflexivity|vm_compute; reflexivity]].
    intros k o Io. destruct k as [|[|k]]; simpl; rewrite ?firstn_nil; unfold place_after; simpl; destruct (ten_points o Io) as [->|[->| ->]]; unfold moderate; simpl; split; apply Rabs_le; lra.
Qed.
(*@ C87_tolerance_refuted *)
(** C87, limit: at a distance of exactly 1e-5 the answer of == depends on the place: 1 and 1.00001
    differ, but moved by 3 they are equal. *)
Lemma tolerance_refuted : forall L : Libm,
  let P x : pt (FA L) := Point_new (A := FA L) x (FofZ 0) in
  let a := P (FofZ 1) in let b := P (Fdec 100001 100000) in let three := P (FofZ 3) in
  pt_eqb a b = false /\ pt_eqb (pt_add a three) (pt_add b three) = true.
Proof. intros L. vm_compute. split; reflexivity. Qed.
(*@ C87_large_refuted *)
(** C87, limit: far outside the range decimals are lost: 1/10 moved by 100000000 and back is 0.09999999. *)
Lemma large_refuted : forall L : Libm,
  let P x : pt (FA L) := Point_new (A := FA L) x (FofZ 0) in
  let a := P (Fdec 1 10) in let v := P (FofZ 100000000) in
  px (pt_sub (pt_add a v) v) = Fdec 9999999 100000000 /\ pt_sameb (pt_sub (pt_add a v) v) a = false.
Proof. intros L. vm_compute. split; reflexivity. Qed.
