(** Remaining queries of triangulations, groups and rooms. *)
From Coq Require Import String.
From Coq Require Import ZArith Reals Lra Lia Bool List Permutation Sorted Arith Psatz.
From Verif Require Import Base Arith ArithR ArithF MPoint MLine MPoly MGroup MTri MVessel MRest Spec SpecHeap SpecGroup SpecDouble SpecWhole SpecRest PPoint PLine PMore PConvex POrder PWalk PCorner PGraph PWhole.
Import ListNotations.
Local Open Scope list_scope.
Local Open Scope R_scope.
#[local] Existing Instance RA.

Lemma pymin_R : forall l : list R, l <> [] -> exists m, pymin (A := RA) l = Ok m /\ In m l /\ forall x, In x l -> m <= x.
Proof.
  intros [|x r] N; [congruence|]. exists (fold_left (nmin (A := RA)) r x). split; [reflexivity|]. clear N. revert x. induction r as [|y r IH]; intros x.
  - simpl. split; [auto|]. intros z [<-|[]]. lra.
  - destruct (IH (nmin (A := RA) x y)) as [I1 I2]. assert (M : (nmin (A := RA) x y = x /\ x <= y) \/ (nmin (A := RA) x y = y /\ y <= x)).
    { unfold nmin. change (@nltb RA y x) with (Rltb y x). destruct (Rltb y x) eqn:E; [right; apply Rltb_true in E; lra|left; apply Rltb_false in E; lra]. }
    pose proof (I2 _ (or_introl eq_refl)) as I3. set (w := nmin (A := RA) x y) in *. change (fold_left (nmin (A := RA)) (y :: r) x) with (fold_left (nmin (A := RA)) r w). set (v := fold_left (nmin (A := RA)) r w) in *. clearbody v. split.
    + destruct M as [[M _]|[M _]]; rewrite M in I1; [destruct I1 as [I1|I1]; [left; exact I1|right; right; exact I1]|right; exact I1].
    + change (v <= w) in I3. intros z [<-|[<-|I]]; [| |apply I2; right; exact I]; destruct M as [[M1 M2]|[M1 M2]]; rewrite M1 in I3; lra.
Qed.
Lemma int_part_pos : forall x, 0 <= x -> (0 <= Int_part x)%Z /\ IZR (Int_part x) <= x < IZR (Int_part x) + 1.
Proof.
  intros x H. destruct (base_Int_part x) as [B1 B2]. split; [|lra]. assert (IZR (-1) < IZR (Int_part x)) as K by (simpl; lra). apply lt_IZR in K. lia.
Qed.
Lemma in_pieces : forall (l : list (seg RA)) k s, nth_error l k = Some s -> In (si s) (flat_map ij l) /\ In (sj s) (flat_map ij l).
Proof. intros l k s E. apply nth_error_In in E. split; apply in_flat_map; exists s; simpl; auto. Qed.
(** One constraint. *)
Lemma refine_one : forall (c : seg RA) (m : R), stored (si c) -> stored (sj c) -> 0 < m -> m <= norm c ->
  exists l, divide_line c (Int_part (norm c / m) + 1) = Ok l /\
    (exists (n : nat) (P : nat -> pt RA), P 0%nat = si c /\ P n = sj c /\ (forall k, (k <= n)%nat -> In (P k) (flat_map ij l)) /\ (forall k, (k < n)%nat -> pt_distance (P k) (P (S k)) <= m + 2 / 10 ^ 8)) /\
    (forall p, In p (flat_map ij l) -> exists t, 0 <= t <= 1 /\ within (1 / 10 ^ 8) p (along (si c) (sj c) t)).
Proof.
  intros c m S1 S2 M N. assert (Q : 0 <= norm c / m) by (apply Rmult_le_pos; [lra|left; apply Rinv_0_lt_compat; lra]). destruct (int_part_pos _ Q) as [I1 I2].
  set (n := Z.to_nat (Int_part (norm c / m) + 1)). assert (EN : (Int_part (norm c / m) + 1)%Z = Z.of_nat n) by (unfold n; lia). assert (N1 : (1 <= n)%nat) by lia. rewrite EN.
  assert (NR : INR n = IZR (Int_part (norm c / m)) + 1) by (rewrite INR_IZR_INZ, <- EN, plus_IZR; reflexivity).
  destruct (divide_line_spec c n N1) as (l & E & LL & P & P0 & Pn & Pk & NTH). exists l. split; [exact E|]. split.
  - exists n, P. split; [exact P0|]. split; [exact Pn|]. split.
    + intros k K. destruct (Nat.eq_dec k n) as [->|NE].
      * destruct n as [|n']; [lia|]. apply (in_pieces l n' (LineSegment (P n') (P (S n')))). apply NTH. lia.
      * apply (in_pieces l k (LineSegment (P k) (P (S k)))). apply NTH. lia.
    + intros k K. pose proof (divide_line_length c n l (LineSegment (P k) (P (S k))) N1 S1 S2 E (nth_error_In _ _ (NTH k K))) as D. apply Rabs_le_inv in D. rewrite norm_dist in D. cbn [LineSegment si sj] in D.
      assert (norm c / INR n <= m).
      { apply Rmult_le_reg_r with (INR n); [rewrite NR; apply IZR_le in I1; lra|]. unfold Rdiv. rewrite Rmult_assoc, Rinv_l, Rmult_1_r by (rewrite NR; apply IZR_le in I1; lra).
        rewrite NR. destruct I2 as [_ I2]. apply (Rmult_lt_compat_r m) in I2; [|lra]. unfold Rdiv in I2. rewrite Rmult_assoc, Rinv_l, Rmult_1_r in I2 by lra. lra. }
      lra.
  - intros p I. apply in_flat_map in I. destruct I as (u & I & J). apply In_nth_error in I. destruct I as [k I]. assert (K : (k < n)%nat) by (rewrite <- LL; apply nth_error_Some; congruence). rewrite (NTH k K) in I. injection I as <-.
    assert (G : forall j, (j <= n)%nat -> exists t, 0 <= t <= 1 /\ within (1 / 10 ^ 8) (P j) (along (si c) (sj c) t)).
    { intros j Hj. assert (NP : 0 < INR n) by (rewrite NR; apply IZR_le in I1; lra). exists (INR j / INR n). split.
      - split; [apply Rmult_le_pos; [apply pos_INR|left; apply Rinv_0_lt_compat; exact NP]|]. apply Rmult_le_reg_r with (INR n); [exact NP|]. unfold Rdiv. rewrite Rmult_assoc, Rinv_l, Rmult_1_r by lra. apply le_INR in Hj. lra.
      - destruct (Nat.eq_dec j 0) as [->|J0]; [|destruct (Nat.eq_dec j n) as [->|Jn]].
        + rewrite P0. unfold within, along. cbn [px py]. replace (INR 0 / INR n) with 0 by (simpl; unfold Rdiv; ring). split; apply Rabs_le; ra_simpl; lra.
        + rewrite Pn. unfold within, along. cbn [px py]. replace (INR n / INR n) with 1 by (field; lra). split; apply Rabs_le; ra_simpl; lra.
        + rewrite (Pk j) by lia. unfold within, along. cbn [px py Point_new].
          pose proof (Rround8_err (px (si c) + INR j / INR n * (px (sj c) - px (si c)))) as E1. pose proof (Rround8_err (py (si c) + INR j / INR n * (py (sj c) - py (si c)))) as E2.
          split; [eapply Rle_trans; [exact E1|lra]|eapply Rle_trans; [exact E2|lra]]. }
    simpl in J. destruct J as [<-|[<-|[]]]; apply G; lia.
Qed.
(*@ C93_refine *)
(** C93: refine_boundaries keeps the points and adds points on the sides only (up to 1e-8): along each side a
    chain of them leads from one end to the other in steps not longer (by more than 2e-8) than the shortest
    side. *)
Lemma refine_spec : forall (sides : list (seg RA)) (points : list (pt RA)), sides <> [] -> (forall c, In c sides -> stored (si c) /\ stored (sj c) /\ si c <> sj c) ->
  exists shortest new, In shortest sides /\ (forall c, In c sides -> norm shortest <= norm c) /\ refine_boundaries Int_part sides points = Ok (points ++ new) /\
    (forall p, In p new -> exists c t, In c sides /\ 0 <= t <= 1 /\ within (1 / 10 ^ 8) p (along (si c) (sj c) t)) /\
    (forall c, In c sides -> exists n P, P 0%nat = si c /\ P n = sj c /\ (forall k, (k <= n)%nat -> In (P k) new) /\ (forall k, (k < n)%nat -> pt_distance (P k) (P (S k)) <= norm shortest + 2 / 10 ^ 8)).
Proof.
  intros sides points NE H. destruct (pymin_R (map norm sides)) as (m & E & I & MIN); [destruct sides; [congruence|discriminate]|]. apply in_map_iff in I. destruct I as (sh & <- & I).
  assert (M : 0 < norm sh).
  { destruct (norm_nonneg sh) as [K|K]; [exact K|]. symmetry in K. apply norm_pos_iff in K. destruct (H sh I) as (_ & _ & D). exfalso. apply D. destruct (si sh), (sj sh). simpl in K. destruct K; congruence. }
  assert (MIN' : forall c, In c sides -> norm sh <= norm c) by (intros c J; apply MIN; apply in_map; exact J).
  assert (G : forall ss, incl ss sides -> forall pts, exists new, foldM (fun ps c => q <- pdiv (norm c) (norm sh) ;; l <- divide_line c (Int_part q + 1) ;; Ok (ps ++ flat_map ij l)) ss pts = Ok (pts ++ new) /\
    (forall p, In p new -> exists c t, In c sides /\ 0 <= t <= 1 /\ within (1 / 10 ^ 8) p (along (si c) (sj c) t)) /\
    (forall c, In c ss -> exists n P, P 0%nat = si c /\ P n = sj c /\ (forall k, (k <= n)%nat -> In (P k) new) /\ (forall k, (k < n)%nat -> pt_distance (P k) (P (S k)) <= norm sh + 2 / 10 ^ 8))).
  { induction ss as [|c ss IH]; intros INC pts.
    - exists []. simpl. rewrite app_nil_r. split; [reflexivity|]. split; [intros p []|intros c []].
    - assert (IC : In c sides) by (apply INC; left; reflexivity). destruct (H c IC) as (S1 & S2 & _). destruct (refine_one c (norm sh) S1 S2 M (MIN' c IC)) as (l & E1 & (n & P & P0 & Pn & PI & PD) & ON).
      cbn [foldM]. unfold pdiv at 1. change (norm sh =? n0)%num with (Reqb (norm sh) 0). assert (Z : Reqb (norm sh) 0 = false) by (apply Reqb_false; lra). rewrite Z. cbn [bind]. change (norm c / norm sh)%num with (norm c / norm sh).
      rewrite E1. cbn [bind]. destruct (IH (fun x J => INC x (or_intror J)) (pts ++ flat_map ij l)) as (new & F1 & F2 & F3). exists (flat_map ij l ++ new). split; [rewrite F1, app_assoc; reflexivity|]. split.
      + intros p J. apply in_app_or in J. destruct J as [J|J]; [|apply F2; exact J]. destruct (ON p J) as (t & T1 & T2). exists c, t. auto.
      + intros d [<-|J].
        * exists n, P. split; [exact P0|]. split; [exact Pn|]. split; [intros k K; apply in_or_app; left; apply PI; exact K|exact PD].
        * destruct (F3 d J) as (n' & P' & Q0 & Qn & QI & QD). exists n', P'. split; [exact Q0|]. split; [exact Qn|]. split; [intros k K; apply in_or_app; right; apply QI; exact K|exact QD]. }
  destruct (G sides (fun x J => J) points) as (new & F1 & F2 & F3). exists sh, new. split; [exact I|]. split; [exact MIN'|]. split; [unfold refine_boundaries; rewrite E; exact F1|]. auto.
Qed.
Lemma stored_whole : forall a b : Z, stored (@mkpt RA (IZR a) (IZR b)).
Proof. intros a b. split; [exists (a * 10 ^ 8)%Z|exists (b * 10 ^ 8)%Z]; cbn [px py]; rewrite mult_IZR; simpl; lra. Qed.
Lemma F2_nth : forall X Y (Q : X -> Y -> Prop) l l' k, Forall2 Q l l' -> match nth_error l k, nth_error l' k with Some x, Some y => Q x y | None, None => True | _, _ => False end.
Proof. intros X Y Q l l' k H. revert k. induction H as [|x y l l' E _ IH]; intros [|k]; simpl; auto. apply IH. Qed.
(*@ C93_refine_refused *)
(** C93: without sides ValueError is raised; with a side of length zero ZeroDivisionError. *)
Lemma refine_refused : (forall points, refine_boundaries Int_part ([] : list (seg RA)) points = Err ValueError) /\
  (forall (sides : list (seg RA)) points c, In c sides -> si c = sj c -> refine_boundaries Int_part sides points = Err ZeroDivisionError).
Proof.
  split; [reflexivity|]. intros sides points c I E. destruct (pymin_R (map norm sides)) as (m & E1 & I1 & MIN); [destruct sides; [destruct I|discriminate]|].
  assert (Z : norm c = 0) by (apply norm_pos_iff; rewrite E; auto). assert (M : m = 0).
  { pose proof (MIN (norm c) (in_map norm _ _ I)) as H. apply in_map_iff in I1. destruct I1 as (d & <- & _). pose proof (norm_nonneg d). lra. }
  unfold refine_boundaries. rewrite E1, M. destruct sides as [|d r]; [destruct I|]. cbn [bind foldM]. unfold pdiv at 1. change (@neqb RA 0 n0) with (Reqb 0 0). assert (Q : Reqb 0 0 = true) by (apply Reqb_true; reflexivity). rewrite Q. reflexivity.
Qed.
(*@ex C93_refine_example *)
(** C93: a side of length 2 and a side of length 5. *)
Lemma refine_example : let sides := [LineSegment (@mkpt RA 0 0) (@mkpt RA 2 0); LineSegment (@mkpt RA 2 0) (@mkpt RA 5 4)] in
  sides <> [] /\ (forall c, In c sides -> stored (si c) /\ stored (sj c) /\ si c <> sj c).
Proof.
  assert (SI : forall a b : Z, stored (@mkpt RA (IZR a) (IZR b))) by (intros a b; apply stored_whole).
  split; [discriminate|]. intros c [<-|[<-|[]]]; cbn [LineSegment si sj]; (split; [apply SI|split; [apply SI|intros H; injection H; lra]]).
Qed.

(*@ C93_internal_points *)
(** C93, any arithmetic: as many of the drawn points as wanted are appended, in the order in which they are
    drawn, and only such that lie inside. *)
Lemma internal_points_spec : forall (A : Arith) (inside : pt A -> res bool) (draw : nat -> pt A) (fuel wanted : nat) (points r : list (pt A)),
  add_internal_points inside draw fuel 0 wanted points = Ok (Some r) ->
  exists ks, r = points ++ map draw ks /\ length ks = wanted /\ StronglySorted lt ks /\
    (forall k, In k ks -> inside (draw k) = Ok true) /\ (forall k last, In last ks -> (k < last)%nat -> ~ In k ks -> inside (draw k) = Ok false).
Proof.
  intros A inside draw. assert (G : forall fuel k wanted points r, add_internal_points inside draw fuel k wanted points = Ok (Some r) ->
    exists ks, r = points ++ map draw ks /\ length ks = wanted /\ StronglySorted lt ks /\ (forall x, In x ks -> (k <= x)%nat) /\
    (forall k, In k ks -> inside (draw k) = Ok true) /\ (forall x last, In last ks -> (k <= x < last)%nat -> ~ In x ks -> inside (draw x) = Ok false)).
  { induction fuel as [|f IH]; intros k [|w] points r E.
    - injection E as <-. exists []. rewrite app_nil_r. repeat split; auto using SSorted_nil; intros x; simpl; tauto.
    - discriminate E.
    - injection E as <-. exists []. rewrite app_nil_r. repeat split; auto using SSorted_nil; intros x; simpl; tauto.
    - cbn [add_internal_points] in E. destruct (inside (draw k)) as [[|]|] eqn:D; cbn [bind] in E; [| |discriminate].
      + apply IH in E. destruct E as (ks & -> & LK & ST & LO & IN & OUT). exists (k :: ks). split; [simpl; rewrite <- app_assoc; reflexivity|]. split; [simpl; congruence|]. split.
        * constructor; [exact ST|]. apply Forall_forall. intros x I. apply LO in I. lia.
        * split; [intros x [<-|I]; [lia|apply LO in I; lia]|]. split; [intros x [<-|I]; [exact D|apply IN; exact I]|]. intros x last [<-|I] R N; [lia|].
          apply (OUT x last I); [|intros J; apply N; right; exact J]. destruct (Nat.eq_dec x k) as [->|]; [exfalso; apply N; left; reflexivity|lia].
      + apply IH in E. destruct E as (ks & -> & LK & ST & LO & IN & OUT). exists ks. split; [reflexivity|]. split; [exact LK|]. split; [exact ST|]. split; [intros x I; apply LO in I; lia|]. split; [exact IN|].
        intros x last I R N. destruct (Nat.eq_dec x k) as [->|]; [exact D|]. apply (OUT x last I); [lia|exact N]. }
  intros fuel wanted points r E. apply G in E. destruct E as (ks & H1 & H2 & H3 & H4 & H5 & H6). exists ks. repeat split; auto. intros k last I K N. apply (H6 k last I); [lia|exact N].
Qed.
(*@ C93_internal_points_end *)
(** C93, any arithmetic: if among the first n draws as many lie inside as are wanted, the loop ends; if no
    draw lies inside, it never does. *)
Lemma internal_points_end : forall (A : Arith) (inside : pt A -> res bool) (draw : nat -> pt A),
  (forall k, exists b, inside (draw k) = Ok b) ->
  (forall ks wanted points, NoDup ks -> (wanted <= length ks)%nat -> (forall k, In k ks -> inside (draw k) = Ok true) ->
    exists fuel r, add_internal_points inside draw fuel 0 wanted points = Ok (Some r)) /\
  ((forall k, inside (draw k) = Ok false) -> forall fuel wanted points, (0 < wanted)%nat -> add_internal_points inside draw fuel 0 wanted points = Ok None).
Proof.
  intros A inside draw TOT. split.
  - assert (G : forall fuel k wanted points, (wanted <= length (filter (fun x => match inside (draw x) with Ok b => b | Err _ => false end) (seq k fuel)))%nat -> exists r, add_internal_points inside draw fuel k wanted points = Ok (Some r)).
    { induction fuel as [|f IH]; intros k [|w] points H; [eexists; reflexivity|simpl in H; lia|eexists; reflexivity|]. cbn [add_internal_points]. destruct (TOT k) as [b B]. cbn [seq filter] in H. rewrite B in H |- *. cbn [bind]. destruct b; apply IH; [simpl in H; lia|exact H]. }
    intros ks wanted points ND W IN. set (fuel := S (list_max ks)). exists fuel. apply G. eapply Nat.le_trans; [exact W|]. apply NoDup_incl_length; [exact ND|]. intros k I. apply filter_In. split.
    + apply in_seq. split; [lia|]. pose proof (proj1 (list_max_le ks (list_max ks)) (le_n _)) as F. rewrite Forall_forall in F. apply F in I. unfold fuel. lia.
    + rewrite (IN k I). reflexivity.
  - intros F. assert (G : forall fuel k wanted points, (0 < wanted)%nat -> add_internal_points inside draw fuel k wanted points = Ok None).
    { induction fuel as [|f IH]; intros k [|w] points H; try lia; [reflexivity|]. cbn [add_internal_points]. rewrite F. cbn [bind]. apply IH. lia. }
    intros. apply G. assumption.
Qed.
(*@ex C93_internal_example *)
Lemma internal_example : let draw k := @mkpt RA (INR k) 0 in let inside := fun p : pt RA => Ok (if Rlt_dec 1 (px p) then true else false) in
  (forall k, exists b, inside (draw k) = Ok b) /\ NoDup [2; 3]%nat /\ (forall k, In k [2; 3]%nat -> inside (draw k) = Ok true) /\ inside (draw 0%nat) = Ok false.
Proof.
  split; [intros k; eexists; reflexivity|]. split; [repeat constructor; simpl; intuition lia|]. split.
  - intros k [<-|[<-|[]]]; cbn; destruct (Rlt_dec _ _); auto; simpl in *; lra.
  - cbn. destruct (Rlt_dec _ _); auto; simpl in *; lra.
Qed.

(*@ C93_constraint *)
(** C93: with whole coordinates, in binary64, intersectsConstraint is true of the edge between two points
    exactly if it crosses one of the sides; an index outside the points is an IndexError. *)
Lemma constraint_whole : forall L (points : list (pt (FA L))) (sides : list (seg (FA L))) (points' : list (pt RA)) (sides' : list (seg RA)) a b,
  Forall2 exact_pt points points' -> exact_segs sides sides' -> Forall (lattice 2000) points' -> Forall whole_seg sides' ->
  match nth_error points' a, nth_error points' b with
  | Some p, Some q => exists r, intersects_constraint points sides (a, b) = Ok r /\ (r = true <-> crosses_some sides' p q)
  | _, _ => intersects_constraint points sides (a, b) = Err IndexError
  end.
Proof.
  intros L points sides points' sides' a b EP ES WP WS. pose proof (F2_nth _ _ _ _ _ a EP) as NA. pose proof (F2_nth _ _ _ _ _ b EP) as NB. rewrite Forall_forall in WP.
  unfold intersects_constraint, get. cbn [fst snd]. destruct (nth_error points' a) as [p|] eqn:Ea; destruct (nth_error points a) as [p1|]; try contradiction; [|reflexivity].
  destruct (nth_error points' b) as [q|] eqn:Eb; destruct (nth_error points b) as [q1|]; try contradiction; [|reflexivity]. cbn [bind].
  assert (EV : exact_seg (LineSegment p1 q1) (@mkseg RA CLineSegment p q)) by (split; [reflexivity|split; assumption]).
  assert (WV : whole_seg (@mkseg RA CLineSegment p q)) by (split; apply WP; eapply nth_error_In; eassumption). clear - ES WS EV WV.
  assert (G : exists bs, mapM (fun x => intersection_on_segment x (LineSegment p1 q1)) sides = Ok bs /\ (existsb (fun b => b) bs = true <-> crosses_some sides' p q)).
  { revert WS. induction ES as [|s t l l' E _ IH]; intros WS; [exists []; split; [reflexivity|]; split; [discriminate|intros (u & [] & _)]|]. inversion WS as [|? ? W1 W2]; subst. destruct (IH W2) as (bs & E1 & I1).
    destruct (crossing_whole L _ _ _ _ E EV W1 WV) as (r & E2 & I2). exists (r :: bs). split; [cbn [mapM]; rewrite E2; cbn [bind]; rewrite E1; reflexivity|]. cbn [existsb]. rewrite orb_true_iff, I1. split.
    - intros [R|(u & I & C)]; [exists t; split; [left; reflexivity|apply I2; exact R]|exists u; split; [right; exact I|exact C]].
    - intros (u & [<-|I] & C); [left; apply I2; exact C|right; exists u; auto]. }
  destruct G as (bs & E & I). rewrite E. cbn [bind]. eexists. split; [reflexivity|exact I].
Qed.

(*@ C93_relpos *)
(** C93, any arithmetic: if tell_relpos prints "disjunct", it prints none of "touch", "overlap", "congruent". *)
Lemma relpos_spec : forall (A : Arith) (inside : list (seg A) -> pt A -> res bool) s t out, tell_relpos inside s t = Ok out ->
  In "disjunct"%string out -> ~ In "touch"%string out /\ ~ In "overlap"%string out /\ ~ In "congruent"%string out.
Proof.
  intros A inside s t out E I. unfold tell_relpos in E. destruct (tri_touch s t) as [a|] eqn:Ea; cbn [bind] in E; [|discriminate].
  destruct (overlap _ s t) as [b|] eqn:Eb; cbn [bind] in E; [|discriminate]. destruct (tri_disjunct _ _ _ s t) as [c|] eqn:Ec; cbn [bind] in E; [|discriminate]. destruct (enclosed _ s t) as [d|] eqn:Ed; cbn [bind] in E; [|discriminate].
  assert (C : c = true).
  { destruct c; [reflexivity|]. injection E as <-. exfalso. destruct a, b, d, (congruent s t); cbn in I; repeat (destruct I as [I|I]; [discriminate I|]); exact I. }
  subst c. unfold tri_disjunct in Ec. destruct (congruent s t) eqn:CG; [discriminate|]. rewrite Eb in Ec. cbn [bind] in Ec. destruct b; [discriminate|].
  destruct (overlap _ t s) as [[|]|]; cbn [bind] in Ec; try discriminate. rewrite Ed in Ec. cbn [bind] in Ec.
  assert (T : a = false).
  { rewrite Ea in Ec. destruct d; [destruct (enclosed _ t s) as [[|]|]; cbn [bind negb] in Ec; try discriminate|]; cbn [bind] in Ec; injection Ec as Ec; destruct a; auto; discriminate. }
  subst a. injection E as <-. destruct d; cbn; (split; [|split]; intros H; repeat (destruct H as [H|H]; [discriminate H|]); exact H).
Qed.

(*@ C93_ordered_copy_refuted *)
(** C93, a finding: ordered_copy returns no copy.  On the shuffled edges of a cycle it answers True and leaves
    the polygon as it was. *)
Lemma ordered_copy_spec : forall (vs : list (pt RA)) (given cyc : list (seg RA)),
  (3 <= length vs < 250)%nat -> NoDup vs -> separated vs -> Forall2 joins (cycle_edges vs) cyc -> Permutation given cyc -> ordered_copy given = Ok (true, given).
Proof.
  intros vs given cyc L ND SEP J P. destruct (order_spec vs given cyc L ND SEP J P) as (us & r & E & _). unfold ordered_copy. rewrite E. reflexivity.
Qed.

(*@ C93_from_points *)
(** C93: segments_from_points returns polygons, not segments: in order, those with a segment both of whose ends
    are among the points. *)
Lemma from_points_spec : forall (polygons : list (list (seg RA))) (points : list (pt RA)), separated (points ++ flat_map ij (concat polygons)) ->
  (forall P, In P (segments_from_points polygons points) <-> In P polygons /\ spanned_by points P) /\
  exists keep : list (seg RA) -> bool, segments_from_points polygons points = filter keep polygons.
Proof.
  intros polygons points SEP. split; [|eexists; reflexivity]. intros P. unfold segments_from_points. rewrite filter_In.
  assert (INP : forall P s p, In P polygons -> In s P -> In p (ij s) -> In p (points ++ flat_map ij (concat polygons))) by (intros Q s p I1 I2 I3; apply in_or_app; right; apply in_flat_map; exists s; split; [apply in_concat; exists Q; auto|exact I3]).
  assert (MEM : forall P s p, In P polygons -> In s P -> In p (ij s) -> existsb (fun q => pt_eqb q p) points = true <-> In p points).
  { intros Q s p I1 I2 I3. rewrite existsb_exists. split.
    - intros (q & I & E). apply (sep_eqb _ q p SEP) in E; [congruence|apply in_or_app; left; exact I|apply (INP Q s p); auto].
    - intros I. exists p. split; [exact I|apply pt_eqb_refl]. }
  split; intros [I H]; (split; [exact I|]).
  - apply existsb_exists in H. destruct H as (y & Iy & H). apply existsb_exists in H. destruct H as (t & It & H). apply filter_In in Iy. destruct Iy as [Iy K]. apply in_concat in Iy. destruct Iy as (Q & IQ & Iy).
    apply andb_true_iff in K. destruct K as [K1 K2]. apply (MEM Q y) in K1; [|auto|auto|simpl; auto]. apply (MEM Q y) in K2; [|auto|auto|simpl; auto].
    unfold seg_eqb in H. rewrite !andb_true_iff in H. destruct H as [[_ H1] H2]. apply (sep_eqb _ _ _ SEP) in H1; [|apply (INP P t); simpl; auto|apply (INP Q y); simpl; auto]. apply (sep_eqb _ _ _ SEP) in H2; [|apply (INP P t); simpl; auto|apply (INP Q y); simpl; auto].
    exists t. rewrite H1, H2. auto.
  - destruct H as (s & Is & H1 & H2). apply existsb_exists. exists s. split.
    + apply filter_In. split; [apply in_concat; exists P; auto|]. apply andb_true_iff. split; apply (MEM P s); simpl; auto.
    + apply existsb_exists. exists s. split; [exact Is|]. unfold seg_eqb. rewrite !pt_eqb_refl. destruct (sc s); reflexivity.
Qed.
(*@ex C93_from_points_example *)
Lemma from_points_example : let A := @mkpt RA 0 0 in let B := @mkpt RA 1 0 in let C := @mkpt RA 0 1 in let D := @mkpt RA 1 1 in
  let polygons := [[LineSegment A B; LineSegment B C; LineSegment C A]; [LineSegment C D; LineSegment D A; LineSegment A C]] in
  separated ([A; B] ++ flat_map ij (concat polygons)) /\ spanned_by [A; B] (nth 0 polygons []) /\ ~ spanned_by [A; B] (nth 1 polygons []).
Proof.
  cbv zeta. split; [|split].
  - intros p q I J. simpl in I, J. repeat (destruct I as [<-|I]; [|]); try destruct I; repeat (destruct J as [<-|J]; [|]); try destruct J; cbn [px py]; intros K1 K2; try reflexivity; exfalso; apply Rabs_def2 in K1; apply Rabs_def2 in K2; lra.
  - eexists. simpl. split; [left; reflexivity|]. simpl. auto.
  - intros (s & I & H1 & H2). simpl in I, H1, H2. destruct I as [<-|[<-|[<-|[]]]]; simpl in H1, H2;
      repeat match goal with H : _ \/ _ |- _ => destruct H as [H|H] | H : False |- _ => destruct H | H : mkpt _ _ = mkpt _ _ |- _ => injection H; clear H; intros end; lra.
Qed.

(*@ C93_degree *)
(** C93: node_degree of an end point is the number of segments that meet there; any other point is refused. *)
Lemma degree_query : forall (l : list (seg RA)) (p : pt RA), separated (flat_map ij l) -> (forall s, In s l -> si s <> sj s) ->
  (In p (flat_map ij l) -> node_degree (adjacency l) p = Ok (incident l p)) /\ (~ In p (flat_map ij l) -> node_degree (adjacency l) p = Err AssertionError).
Proof.
  intros l p SEP NN. unfold node_degree. split.
  - intros I. assert (J : In (p, neighbour l p) (adjacency l)) by (unfold adjacency; apply in_map_iff; exists p; split; [reflexivity|apply point_set_spec; exact I]).
    destruct (filter (fun x => pt_sameb p (fst x)) (adjacency l)) as [|[q ns] r] eqn:E.
    + exfalso. assert (K : In (p, neighbour l p) (filter (fun x => pt_sameb p (fst x)) (adjacency l))) by (apply filter_In; split; [exact J|apply pt_sameb_refl]). rewrite E in K. destruct K.
    + assert (K : In (q, ns) (filter (fun x => pt_sameb p (fst x)) (adjacency l))) by (rewrite E; left; reflexivity). apply filter_In in K. destruct K as [K1 K2]. apply pt_sameb_iff in K2. cbn [fst] in K2. subst q.
      f_equal. apply (degree_spec l p ns SEP NN K1).
  - intros N. destruct (filter (fun x => pt_sameb p (fst x)) (adjacency l)) as [|[q ns] r] eqn:E; [reflexivity|]. exfalso.
    assert (K : In (q, ns) (filter (fun x => pt_sameb p (fst x)) (adjacency l))) by (rewrite E; left; reflexivity). apply filter_In in K. destruct K as [K1 K2]. apply pt_sameb_iff in K2. cbn [fst] in K2. subst q. apply N. apply (degree_spec l p ns SEP NN K1).
Qed.

(*@ C93_room *)
(** C93, any arithmetic: the polygon of a room consists of the Wall segments of the parts of its inner and
    outer cycles, each as often as its part occurs there. *)
Lemma room_polygon : forall (A : Arith) (r : room A) (s : seg A),
  (In s (as_polygon r) <-> sc s = CWall /\ exists cyc part, (In cyc (rm_innere r) \/ In cyc (rm_aussere r)) /\ In part cyc /\ In s part) /\
  length (as_polygon r) = list_sum (map (fun part => length (wall_segments part)) (concat (rm_innere r) ++ concat (rm_aussere r))).
Proof.
  intros A r s. split.
  - unfold as_polygon, ganze_wandung, wall_segments. rewrite in_flat_map. split.
    + intros (part & I & J). apply filter_In in J. destruct J as [J W]. split; [unfold is_wall in W; destruct (sc s); simpl in W; congruence|]. apply in_app_or in I. destruct I as [I|I]; apply in_concat in I; destruct I as (cyc & I1 & I2); exists cyc, part; auto.
    + intros (W & cyc & part & I & J & K). exists part. split; [apply in_or_app; destruct I as [I|I]; [left|right]; apply in_concat; exists cyc; auto|]. apply filter_In. split; [exact K|]. unfold is_wall. rewrite W. reflexivity.
  - unfold as_polygon, ganze_wandung. generalize (concat (rm_innere r) ++ concat (rm_aussere r)). clear. induction l as [|x l IH]; [reflexivity|]. cbn [flat_map map list_sum fold_right]. rewrite app_length, IH. reflexivity.
Qed.

(*@ C93_size *)
(** C93: characteristic_size is half of the smallest diameter; without diameters it is a ValueError. *)
Lemma size_spec : (forall d : list R, d <> [] -> exists m, In m d /\ (forall x, In x d -> m <= x) /\ characteristic_size (A := RA) d = Ok (m / 2)) /\
  characteristic_size (A := RA) [] = Err ValueError.
Proof.
  split; [|reflexivity]. intros d N. destruct (pymin_R d N) as (m & E & I & MIN). exists m. split; [exact I|]. split; [exact MIN|]. unfold characteristic_size. rewrite E. cbn [bind]. unfold pdiv.
  change (n2 =? n0)%num with (Reqb (1 + 1) 0). assert (Z : Reqb (1 + 1) 0 = false) by (apply Reqb_false; lra). rewrite Z. f_equal. 
Qed.
(*@ex C93_relpos_example *)
(** C93: two triangles far from each other are told to be disjunct. *)
Lemma relpos_example : forall L, let P a b := @mkpt (FA L) (FofZ a) (FofZ b) in let T a := [LineSegment (P a 0%Z) (P (a + 2) 0)%Z; LineSegment (P (a + 2) 0)%Z (P a 2%Z); LineSegment (P a 2%Z) (P a 0%Z)] in
  tell_relpos (fun _ _ => Ok false) (T 0%Z) (T 10%Z) = Ok ["disjunct"%string].
Proof. intros L. vm_compute. reflexivity. Qed.
(*@ex C93_constraint_example *)
(** C93: the edge from (0, 0) to (2, 2) crosses the side from (0, 2) to (2, 0). *)
Lemma constraint_example : let sides := [LineSegment (@mkpt RA 0 2) (@mkpt RA 2 0)] in
  Forall (lattice 2000) [@mkpt RA 0 0; @mkpt RA 2 2] /\ Forall whole_seg sides /\ crosses_some sides (@mkpt RA 0 0) (@mkpt RA 2 2).
Proof.
  assert (LA : forall a b : Z, (Z.abs a <= 2000)%Z -> (Z.abs b <= 2000)%Z -> lattice 2000 (@mkpt RA (IZR a) (IZR b))) by (intros a b; exists a, b; auto).
  split; [repeat constructor; apply LA; lia|]. split; [repeat constructor; apply LA; lia|]. exists (LineSegment (@mkpt RA 0 2) (@mkpt RA 2 0)). split; [left; reflexivity|].
  split; [unfold crossproduct; ra_simpl; cbn; lra|]. split.
  - exists (@mkpt RA 1 1). split; exists (1 / 2); (split; [lra|]); unfold along; cbn; f_equal; lra.
  - cbn. repeat split; intros H; injection H; lra.
Qed.
(*@ex C93_degree_example *)
(** C93: two sides of a triangle and a third segment from their common corner. *)
Lemma degree_example : let l := [LineSegment (@mkpt RA 0 0) (@mkpt RA 1 0); LineSegment (@mkpt RA 0 0) (@mkpt RA 0 1); LineSegment (@mkpt RA 1 1) (@mkpt RA 0 0)] in
  separated (flat_map ij l) /\ (forall s, In s l -> si s <> sj s) /\ incident l (@mkpt RA 0 0) = 3%nat.
Proof.
  cbv zeta. split; [|split].
  - intros p q I J. simpl in I, J. repeat (destruct I as [<-|I]; [|]); try destruct I; repeat (destruct J as [<-|J]; [|]); try destruct J; cbn [px py]; intros K1 K2; try reflexivity; exfalso; apply Rabs_def2 in K1; apply Rabs_def2 in K2; lra.
  - intros s [<-|[<-|[<-|[]]]] H; injection H; lra.
  - unfold incident. cbn [filter LineSegment si sj]. repeat (match goal with |- context [pt_dec ?a ?b] => let H := fresh in destruct (pt_dec a b) as [H|H]; [try (exfalso; injection H; lra)|try (exfalso; apply H; reflexivity)] end); try reflexivity.
Qed.
