(** triangle_mesh and area. *)
From Coq Require Import Reals ZArith Lra Lia Bool List Psatz Permutation Sorted.
From Verif Require Import Base Arith ArithR ArithF MPoint MLine MPoly MTri Spec SpecInside SpecGroup SpecTri
  PPoint PLine PShape PPoly PCommon PConvex POrder PMore PInside PTri PSplit PCorner PCollinear PEar PEar2.
Import ListNotations.
Local Open Scope R_scope.
#[local] Existing Instance RA.

Lemma find_from_some : forall X (f : X -> bool) l k, (exists x, In x l /\ f x = true) ->
  exists n x, find_from f k l = Some (k + n)%nat /\ nth_error l n = Some x /\ f x = true.
Proof.
  intros X f l. induction l as [|y l IH]; intros k (x & I & E); [destruct I|]. cbn [find_from]. destruct (f y) eqn:F.
  - exists 0%nat, y. rewrite Nat.add_0_r. auto.
  - destruct I as [->|I]; [congruence|]. destruct (IH (S k)) as (n & z & -> & N & Z); [eauto|].
    exists (S n), z. split; [f_equal; lia|]. auto.
Qed.
Lemma number_of_spec : forall ap (p : pt RA), In p ap -> exists n, number_of ap p = Ok n /\ nth_error ap n = Some p.
Proof.
  intros ap p I. unfold number_of. destruct (find_from_some _ (fun q => pt_sameb q p) ap 0) as (n & x & -> & N & E).
  - exists p. split; auto. apply pt_sameb_iff. auto.
  - exists n. apply pt_sameb_iff in E. subst. auto.
Qed.
Lemma mapM_Forall2 : forall X Y (f : X -> res Y) (R : X -> Y -> Prop) l, (forall x, In x l -> exists y, f x = Ok y /\ R x y) ->
  exists ys, mapM f l = Ok ys /\ Forall2 R l ys.
Proof.
  intros X Y f R l. induction l as [|x l IH]; intros H; [exists []; split; [reflexivity|constructor]|].
  destruct (H x (or_introl eq_refl)) as (y & E & K). destruct IH as (ys & E2 & F); [intros; apply H; cbn; auto|].
  exists (y :: ys). cbn. rewrite E. cbn. rewrite E2. split; [reflexivity|constructor; auto].
Qed.
Lemma add_vertices_same : forall ap vs : list (pt RA), Forall stored vs -> incl vs ap -> fold_left add_vertex (map xy vs) ap = ap.
Proof.
  intros ap vs F. induction F as [|v vs S' F IH]; intros I; [reflexivity|]. cbn [map fold_left]. unfold add_vertex at 2. cbn [xy fst snd].
  rewrite Point_new_stored by auto.
  replace (existsb (fun q => pt_eqb v q) ap) with true; [apply IH; intros x Hx; apply I; cbn; auto|].
  symmetry. apply existsb_exists. exists v. split; [apply I; cbn; auto|apply pt_eqb_refl].
Qed.

Definition mesh_of (inside : nat -> nat -> list (seg RA) -> pt RA -> res bool) (l : list (seg RA)) (ap : list (pt RA)) :=
  fun '(k, (a, b, c)) =>
    x <- vertex ap a ;; y <- vertex ap b ;; z <- vertex ap c ;;
    p <- MPoly.close (polygon_from_nodes [x; y; z] false) ;;
    t <- triangle_new p ;;
    ok <- mesh_ok (inside k) l t ;;
    Ok (if ok : bool then [t] else []).

Lemma mesh_ok_spec : forall inside us l (a p b : pt RA) tri,
  polygon_of us l -> separated us -> NoDup [a; p; b] -> incl [a; p; b] us -> polygon_of [a; p; b] tri ->
  triangle_area tri = Ok (Rabs (orient a p b) / 2) -> 0 < Rabs (orient a p b) ->
  (forall f, mesh_ok inside l tri = Ok f -> decided inside us l f a p b) /\
  ((forall n q x, exists bo, inside n q x = Ok bo) -> exists bo, mesh_ok inside l tri = Ok bo).
Proof.
  intros inside us c a p b tri PO SEP ND IN PT AR OR. unfold mesh_ok.
  assert (E : poly_midpoint tri = Ok (mean3 a p b)).
  { destruct (midpoint_spec tri [a; p; b] ND) as [_ H].
    - intros q. rewrite <- (polygon_ends _ _ PT), in_flat_map. split; intros (s & Is & K); exists s; cbn in *; intuition.
    - rewrite H. 2:{ intros ->. destruct PT as (l' & P & F). apply Permutation_nil in P. subst. inversion F. }
      f_equal. unfold mean3. cbn [map fold_right length]. f_equal; unfold Rdiv; cbn [INR]; f_equal; try ring; f_equal; ring. }
  rewrite E. cbn [bind]. set (m := mean3 a p b).
  destruct (point_set_spec tri) as [_ PT1]. destruct (point_set_spec c) as [_ PC1].
  set (others := filter _ _).
  assert (OI : forall q, In q others <-> In q us /\ ~ In q [a; p; b]).
  { intros q. unfold others. rewrite filter_In, PC1, (polygon_ends us c PO), negb_true_iff. split; intros [Iq H]; (split; [auto|]).
    - intros K. assert (existsb (pt_eqb q) (point_set tri) = true); [|congruence]. apply existsb_exists. exists q.
      split; [apply PT1, (polygon_ends _ _ PT); auto|apply pt_eqb_refl].
    - destruct (existsb (pt_eqb q) (point_set tri)) eqn:Ex; auto. exfalso. apply H. apply existsb_exists in Ex as (x & Ix & Ex).
      apply PT1, (polygon_ends _ _ PT) in Ix. apply (sep_eqb us) in Ex; auto. subst. auto. }
  split.
  - intros f. destruct (inside 0%nat c m) as [bo|] eqn:E1; cbn [bind]; [|discriminate]. destruct bo; cbn [negb].
    2:{ intros H. injection H as <-. exists tri. split; auto. split; [discriminate|auto]. }
    destruct (mapM _ _) as [ins|] eqn:E2; cbn [bind]; [|discriminate].
    destruct (existsb (fun x => x) ins) eqn:E3.
    + intros H. injection H as <-. exists tri. split; auto. split; [discriminate|]. intros _. right.
      assert (exists n q, In (n, q) (combine (seq 0 (length others)) others) /\ inside (S n) tri q = Ok true) as (n & q & I & K).
      { clear - E2 E3. revert ins E2 E3. induction (combine _ others) as [|[n q] L IH]; intros ins E2 E3.
        - cbn in E2. injection E2 as <-. discriminate.
        - cbn in E2. destruct (inside (S n) tri q) as [b1|] eqn:E4; cbn in E2; [|discriminate]. destruct (mapM _ L) as [i2|] eqn:E5; cbn in E2; [|discriminate].
          injection E2 as <-. cbn in E3. destruct b1.
          + exists n, q. cbn. auto.
          + destruct (IH i2 eq_refl E3) as (n' & q' & ? & ?). exists n', q'. cbn. auto. }
      apply in_combine_r in I. apply OI in I as [I1 I2]. exists q, n. auto.
    + rewrite AR. cbn [bind]. unfold n0. ra. replace (Rleb (Rabs (orient a p b) / 2) 0) with false by (symmetry; apply Rleb_false; lra).
      intros H. injection H as <-. exists tri. split; auto. split; [|discriminate]. intros _. split; auto.
      intros q Iq Nq. assert (In q others) as I by (apply OI; auto).
      destruct (combine_seq_In _ others 0%nat q I) as (n & K). exists n. apply (mapM_false _ _ _ _ E2 E3 _ K).
  - intros TOT. destruct (TOT 0%nat c m) as (bo & ->). cbn [bind]. destruct bo; cbn [negb]; [|eauto].
    destruct (mapM_total _ _ (fun '(n, x) => inside (S n) tri x) (combine (seq 0 (length others)) others)) as (ins & ->).
    { intros [n x] _. apply TOT. }
    cbn [bind]. destruct (existsb (fun x => x) ins); [eauto|]. rewrite AR. cbn. eauto.
Qed.

Lemma mesh_polygon : forall a b c : pt RA, stored a -> stored b -> stored c -> NoDup [a; b; c] -> separated [a; b; c] ->
  MPoly.close (polygon_from_nodes [xy a; xy b; xy c] false) = Ok [LineSegment a b; LineSegment b c; LineSegment c a].
Proof.
  intros a b c A B C ND SEP.
  assert (E : polygon_from_nodes [xy a; xy b; xy c] false = [LineSegment a b; LineSegment b c]).
  { unfold polygon_from_nodes. cbn [xy map pairs]. rewrite !Point_new_stored by auto. reflexivity. }
  rewrite E. destruct (close_spec (LineSegment a b) [LineSegment b c]) as (C1 & _ & _ & C2 & _). cbn [last] in *. apply C2.
  rewrite C1. cbn [si sj LineSegment]. rewrite (sep_neqb _ a c SEP); [rewrite andb_false_r; reflexivity|cbn; auto|cbn; auto|].
  intros ->. inversion ND as [|? ? H]. apply H. cbn. auto.
Qed.

Lemma mesh_one : forall inside l vs ap k ijk a b c, polygon_of vs l -> separated vs -> Forall stored vs -> Permutation ap vs ->
  numbered ap ijk (a, b, c) -> 0 < Rabs (orient a b c) ->
  (forall r, mesh_of inside l ap (k, ijk) = Ok r -> exists f t, decided (inside k) vs l f a b c /\
     triangle_area t = Ok (Rabs (orient a b c) / 2) /\ r = if f : bool then [t] else []) /\
  ((forall n q x, exists bo, inside k n q x = Ok bo) -> exists r, mesh_of inside l ap (k, ijk) = Ok r).
Proof.
  intros inside l vs ap k [[i j] m] a b c PO SEP ST P (N1 & N2 & N3) OR. unfold mesh_of, vertex. rewrite N1, N2, N3. cbn [bind].
  assert (IN : incl [a; b; c] vs).
  { intros x [<-|[<-|[<-|[]]]]; apply (Permutation_in _ P); eapply nth_error_In; eauto. }
  assert (ND : NoDup [a; b; c]).
  { assert (a <> b /\ b <> c /\ a <> c) as (D1 & D2 & D3).
    { repeat split; intros ->; unfold orient in OR; ring_simplify in OR;
      match type of OR with 0 < Rabs ?x => replace x with 0 in OR by ring; rewrite Rabs_R0 in OR; lra | _ => rewrite Rabs_R0 in OR; lra end. }
    repeat constructor; cbn; intuition congruence. }
  assert (SEP3 : separated [a; b; c]) by (apply (separated_incl vs); auto).
  rewrite Forall_forall in ST.
  change (@px RA a, @py RA a) with (xy a). change (@px RA b, @py RA b) with (xy b). change (@px RA c, @py RA c) with (xy c).
  rewrite mesh_polygon; [|apply ST, IN; cbn; auto|apply ST, IN; cbn; auto|apply ST, IN; cbn; auto|auto|auto]. cbn [bind].
  assert (PG : polygon_of [a; b; c] [LineSegment a b; LineSegment b c; LineSegment c a]).
  { eexists. split; [apply Permutation_refl|]. cbn. repeat (apply Forall2_cons; [left; auto|]). constructor. }
  destruct (triangle_of a b c _ ND SEP3 PG OR) as (tri & -> & RE & PT & AR & PS). cbn [bind].
  destruct (mesh_ok_spec (inside k) vs l a b c tri PO SEP ND IN PT AR OR) as [M1 M2]. split.
  - intros r. destruct (mesh_ok (inside k) l tri) as [f|]; cbn [bind]; [|discriminate]. intros H. injection H as <-. exists f, tri. auto.
  - intros TOT. destruct (M2 TOT) as (bo & ->). cbn. eauto.
Qed.

Lemma mesh_loop : forall inside l vs ap, polygon_of vs l -> separated vs -> Forall stored vs -> Permutation ap vs ->
  forall ts tris k, Forall2 (numbered ap) ts tris -> Forall (fun '(a, b, c) => 0 < Rabs (orient a b c)) tris ->
  (forall kept, mapM (mesh_of inside l ap) (combine (seq k (length ts)) ts) = Ok kept ->
     exists flags areas, length flags = length tris /\ mapM triangle_area (concat kept) = Ok areas /\
       fold_right Rplus 0 areas = flagged_area flags tris /\
       (forall n f a b c, nth_error flags n = Some f -> nth_error tris n = Some (a, b, c) -> decided (inside (k + n)%nat) vs l f a b c)) /\
  ((forall k n q x, exists bo, inside k n q x = Ok bo) -> exists kept, mapM (mesh_of inside l ap) (combine (seq k (length ts)) ts) = Ok kept).
Proof.
  intros inside l vs ap PO SEP ST P ts tris k F. revert k. induction F as [|ijk [[a b] c] ts tris N F IH]; intros k OR.
  - split; [|cbn; eauto]. intros kept H. cbn in H. injection H as <-. exists [], []. repeat split; auto. intros [|n]; discriminate.
  - inversion OR as [|? ? O1 O2]; subst. destruct (IH (S k) O2) as [I1 I2]. destruct (mesh_one inside l vs ap k ijk a b c PO SEP ST P N O1) as [J1 J2].
    cbn [length seq combine mapM]. split.
    + intros kept. destruct (mesh_of inside l ap (k, ijk)) as [r|] eqn:E; cbn [bind]; [|discriminate].
      destruct (mapM _ _) as [kept'|] eqn:E2; cbn [bind]; [|discriminate]. intros H. injection H as <-.
      destruct (J1 r eq_refl) as (f & t & D & AR & ER). destruct (I1 kept' eq_refl) as (flags & areas & LF & EA & SU & DE).
      exists (f :: flags), (if f then Rabs (orient a b c) / 2 :: areas else areas). split; [cbn; lia|]. split; [|split].
      * cbn [concat]. subst r. destruct f; cbn [app]; auto. cbn [mapM]. rewrite AR. cbn [bind]. rewrite EA. reflexivity.
      * unfold flagged_area in *. cbn [combine map fold_right]. rewrite <- SU. destruct f; cbn [fold_right]; lra.
      * intros [|n] g a' b' c' G1 G2; cbn in G1, G2.
        -- injection G1 as <-. injection G2 as <- <- <-. rewrite Nat.add_0_r. auto.
        -- replace (k + S n)%nat with (S k + n)%nat by lia. apply (DE n g); auto.
    + intros TOT. destruct J2 as (r & ->); [intros; apply TOT|]. cbn [bind]. destruct (I2 TOT) as (kept & ->). cbn. eauto.
Qed.

Definition all_total (inside : nat -> nat -> list (seg RA) -> pt RA -> res bool) : Prop := forall k n q x, exists bo, inside k n q x = Ok bo.

Lemma point_set_polygon : forall vs (l : list (seg RA)), polygon_of vs l -> NoDup vs -> Permutation (point_set l) vs.
Proof.
  intros vs l PO ND. destruct (point_set_spec l) as [N1 P1]. apply NoDup_Permutation; auto. intros q. rewrite P1. apply polygon_ends. auto.
Qed.
Lemma asked_any : forall l : list (seg RA),
  exists segs, mapM (fun s => a <- number_of (point_set l) (si s) ;; b <- number_of (point_set l) (sj s) ;; Ok (a, b)) l = Ok segs /\ asked (point_set l) l segs.
Proof.
  intros l. destruct (point_set_spec l) as [_ P1]. apply mapM_Forall2. intros s I.
  destruct (number_of_spec (point_set l) (si s)) as (i & -> & N1); [apply P1, in_flat_map; exists s; cbn; auto|].
  destruct (number_of_spec (point_set l) (sj s)) as (j & -> & N2); [apply P1, in_flat_map; exists s; cbn; auto|].
  exists (i, j). auto.
Qed.

(*@ C70_area *)
(** C70: the area of a closed polygon.  The triangulation library is asked with the distinct corners in
    some order (ap) and the segments as pairs of their numbers.  If it finds no triangles the area is 0.  If it answers
    with triangles on the given corners, none of them degenerate, then a value returned is the sum of the
    areas of those triangles that were accepted, rounded to 8 decimals; the area is returned whenever
    all the answers about internal points are given. *)
Lemma area_spec : forall (lib : mesh_lib RA) in1 in2 (vs : list (pt RA)) (l : list (seg RA)),
  polygon_of vs l -> NoDup vs -> separated vs -> Forall stored vs ->
  exists ap segs, Permutation ap vs /\ asked ap l segs /\
    (lib (map xy ap) segs = None -> area lib in1 in2 l = Ok 0) /\
    forall ts tris, lib (map xy ap) segs = Some (map xy ap, ts) -> Forall2 (numbered ap) ts tris ->
      Forall (fun '(a, b, c) => 0 < Rabs (orient a b c)) tris ->
      (forall v, area lib in1 in2 l = Ok v ->
         exists flags, length flags = length tris /\ v = Rround8 (flagged_area flags tris) /\
           forall n f a b c, nth_error flags n = Some f -> nth_error tris n = Some (a, b, c) -> decided (in2 n) vs l f a b c) /\
      ((forall k n q x, exists b1 b2, in1 k n q x = Ok b1 /\ in2 k n q x = Ok b2) -> exists v, area lib in1 in2 l = Ok v).
Proof.
  intros lib in1 in2 vs l PO ND SEP ST. pose proof (point_set_polygon vs l PO ND) as PS.
  destruct (asked_any l) as (segs & ES & AS). exists (point_set l), segs. split; auto. split; auto.
  assert (SAME : fold_left add_vertex (map xy (point_set l)) (point_set l) = point_set l).
  { apply add_vertices_same; [|intros x; auto]. rewrite Forall_forall in *. intros x I. apply ST. apply (Permutation_in _ PS). auto. }
  split.
  - intros LN. unfold area, detailled_area, triangle_mesh. rewrite ES. cbn [bind]. match goal with |- context [lib ?m segs] => change (lib m segs) with (lib (map xy (point_set l)) segs) end. rewrite LN. cbn [bind mapM].
    rewrite nsum_R. cbn [fold_right]. f_equal. apply Rround8_id. exists 0%Z. lra.
  - intros ts tris LS NU OR.
    assert (D : forall inside, detailled_area lib inside l =
              (ts <- (kept <- mapM (mesh_of inside l (point_set l)) (combine (seq 0 (length ts)) ts) ;; Ok (concat kept)) ;;
               as_ <- mapM triangle_area ts ;; Ok (nround8 (nsum as_)))).
    { intros inside. unfold detailled_area, triangle_mesh. rewrite ES. cbn [bind]. match goal with |- context [lib ?m segs] => change (lib m segs) with (lib (map xy (point_set l)) segs) end. rewrite LS. match goal with |- context [fold_left (@add_vertex RA) ?m ?q] => change (fold_left (@add_vertex RA) m q) with (fold_left (@add_vertex RA) (map xy (point_set l)) (point_set l)) end. rewrite SAME. reflexivity. }
    unfold area. rewrite !D.
    destruct (mesh_loop in1 l vs (point_set l) PO SEP ST PS ts tris 0%nat NU OR) as [A1 A2].
    destruct (mesh_loop in2 l vs (point_set l) PO SEP ST PS ts tris 0%nat NU OR) as [B1 B2]. split.
    + intros v. destruct (mapM (mesh_of in1 l (point_set l)) _) as [k1|]; cbn [bind]; [|discriminate].
      destruct (mapM triangle_area (concat k1)); cbn [bind]; [|discriminate].
      destruct (mapM (mesh_of in2 l (point_set l)) _) as [k2|]; cbn [bind]; [|discriminate].
      destruct (B1 k2 eq_refl) as (flags & areas & LF & EA & SU & DE). rewrite EA. cbn [bind]. intros H. injection H as <-.
      exists flags. split; auto. split; [|intros; apply (DE n); auto]. rewrite nsum_R, SU. reflexivity.
    + intros TOT. destruct A2 as (k1 & E1); [intros k n q x; destruct (TOT k n q x) as (b1 & b2 & ? & ?); eauto|].
      destruct B2 as (k2 & E2); [intros k n q x; destruct (TOT k n q x) as (b1 & b2 & ? & ?); eauto|].
      rewrite E1, E2. cbn [bind]. destruct (A1 k1 E1) as (? & a1 & _ & -> & _). destruct (B1 k2 E2) as (? & a2 & _ & -> & _). cbn. eauto.
Qed.

Lemma flagged_all : forall tris flags, length flags = length tris -> Forall (fun f => f = true) flags ->
  flagged_area flags tris = fold_right Rplus 0 (map (fun '(a, b, c) => Rabs (orient a b c) / 2) tris).
Proof.
  induction tris as [|[[a b] c] tris IH]; intros [|f flags] L F; try discriminate; [reflexivity|].
  inversion F; subst. cbn in L. unfold flagged_area in *. cbn [combine map fold_right]. rewrite IH by (auto; lia). reflexivity.
Qed.

(*@ C70_triangulated *)
(** C70: if the library answers with a triangulation of the counterclockwise polygon (its corners can be cut
    off one after the other, each leaving one of the triangles, up to the order of the triangles and of
    their corners), and the tests of internal points say that the means of the triangles are inside and no
    corners are inside the triangles, then the area is the shoelace area, rounded to 8 decimals. *)
Lemma area_triangulated : forall (lib : mesh_lib RA) in1 in2 (vs : list (pt RA)) (l : list (seg RA)),
  polygon_of vs l -> NoDup vs -> separated vs -> Forall stored vs ->
  (forall ap segs, Permutation ap vs -> asked ap l segs ->
     exists ts tris cs tris' x y, lib (map xy ap) segs = Some (map xy ap, ts) /\ Forall2 (numbered ap) ts tris /\
       Permutation tris tris' /\ Forall2 same_corners tris' cs /\
       clipped (fun _ a p b => 0 < orient a p b) vs cs [x; y]) ->
  (forall k n q x, exists b1 b2, in1 k n q x = Ok b1 /\ in2 k n q x = Ok b2) ->
  (forall k a b c, incl [a; b; c] vs -> in2 k 0%nat l (mean3 a b c) <> Ok false) ->
  (forall k n t q, In q vs -> in2 k (S n) t q <> Ok true) ->
  area lib in1 in2 l = Ok (Rround8 (shoelace vs / 2)).
Proof.
  intros lib in1 in2 vs l PO ND SEP ST LIB TOT T1 T2.
  destruct (area_spec lib in1 in2 vs l PO ND SEP ST) as (ap & segs & PA & AS & _ & H).
  destruct (LIB ap segs PA AS) as (ts & tris & cs & tris' & x & y & LE & NU & PT & SC & CL).
  pose proof (clipped_all _ _ _ _ CL) as FP.
  destruct (clipped_shoelace _ _ _ _ CL) as [SH _].
  assert (Z : shoelace [x; y] = 0) by (unfold shoelace; cbn; ring). rewrite Z, Rplus_0_r in SH.
  assert (OR' : Forall (fun '(a, b, c) => 0 < Rabs (orient a b c)) tris' /\
                fold_right Rplus 0 (map (fun '(a, b, c) => Rabs (orient a b c) / 2) tris') = fold_right Rplus 0 (map (fun '(a, p, b) => orient a p b) cs) / 2).
  { clear - SC FP. induction SC as [|[[a b] c] [[a' b'] c'] tris' cs S1 SC IH]; [split; [constructor|cbn; lra]|].
    inversion FP; subst. destruct (IH H2) as [I1 I2]. cbn [same_corners] in S1. pose proof (orient_perm _ _ S1 a b c a' b' c' eq_refl eq_refl) as OP.
    rewrite (Rabs_right (orient a' b' c')) in OP by lra. split.
    - constructor; auto. rewrite <- OP. auto.
    - cbn [map fold_right]. rewrite <- OP, I2. lra. }
  destruct OR' as [OR' SU].
  assert (OR : Forall (fun '(a, b, c) => 0 < Rabs (orient a b c)) tris).
  { rewrite Forall_forall in *. intros t I. apply OR'. apply (Permutation_in _ PT). auto. }
  destruct (H ts tris LE NU OR) as [H1 H2]. destruct (H2 TOT) as (v & EV). rewrite EV. f_equal.
  destruct (H1 v EV) as (flags & LF & -> & DE). f_equal. rewrite flagged_all; auto.
  - rewrite SH, <- SU.
    assert (G : forall u w : list R, Permutation u w -> fold_right Rplus 0 u = fold_right Rplus 0 w).
    { induction 1; cbn [fold_right]; lra. }
    apply G. apply Permutation_map. auto.
  - rewrite Forall_forall. intros f I. destruct (In_nth_error _ _ I) as (n & En). destruct (nth_error tris n) as [[[a b] c]|] eqn:Et.
    2:{ apply nth_error_None in Et. assert (nth_error flags n <> None) as K by congruence. apply nth_error_Some in K. lia. }
    destruct (DE n f a b c En Et) as (t & _ & _ & D2). destruct f; auto. destruct (D2 eq_refl) as [K|(q & m & Iq & _ & K)]; exfalso.
    + apply (T1 n a b c); auto. assert (exists ijk, numbered ap ijk (a, b, c)) as ([[i j] k] & N1 & N2 & N3).
      { apply nth_error_In in Et. destruct (Forall2_In_r _ _ _ _ _ _ NU Et) as (ijk & _ & K'). eauto. }
      intros z [<-|[<-|[<-|[]]]]; apply (Permutation_in _ PA); eapply nth_error_In; eauto.
    + apply (T2 n m t q Iq K).
Qed.

(*@ C70_degenerate *)
(** C70 (finding): a single triangle with (exactly) collinear, distinct corners among the library's
    triangles, even when it comes first and would count nothing, makes the area raise an exception. *)
Lemma area_degenerate : forall (lib : mesh_lib RA) in1 in2 (vs : list (pt RA)) (l : list (seg RA)),
  polygon_of vs l -> NoDup vs -> separated vs -> Forall stored vs ->
  (forall ap segs, Permutation ap vs -> asked ap l segs ->
     exists i j k r a b c, lib (map xy ap) segs = Some (map xy ap, (i, j, k) :: r) /\
       numbered ap (i, j, k) (a, b, c) /\ NoDup [a; b; c] /\ orient a b c = 0) ->
  area lib in1 in2 l = Err OtherException.
Proof.
  intros lib in1 in2 vs l PO ND SEP ST LIB. pose proof (point_set_polygon vs l PO ND) as PS.
  destruct (asked_any l) as (segs & ES & AS).
  destruct (LIB _ _ PS AS) as (i & j & k & r & a & b & c & LE & (N1 & N2 & N3) & ND3 & O3).
  unfold area, detailled_area, triangle_mesh. rewrite ES. cbn [bind]. match goal with |- context [lib ?m segs] => change (lib m segs) with (lib (map xy (point_set l)) segs) end. rewrite LE.
  assert (SAME : fold_left add_vertex (map xy (point_set l)) (point_set l) = point_set l).
  { apply add_vertices_same; [|intros x; auto]. rewrite Forall_forall in *. intros x I. apply ST. apply (Permutation_in _ PS). auto. }
  rewrite SAME. cbn [length seq combine mapM]. unfold vertex at 1 2 3. rewrite N1, N2, N3. cbn [bind].
  assert (IN : incl [a; b; c] vs).
  { intros x [<-|[<-|[<-|[]]]]; apply (Permutation_in _ PS); eapply nth_error_In; eauto. }
  assert (SEP3 : separated [a; b; c]) by (apply (separated_incl vs); auto). rewrite Forall_forall in ST.
  change (@px RA a, @py RA a) with (xy a). change (@px RA b, @py RA b) with (xy b). change (@px RA c, @py RA c) with (xy c).
  rewrite mesh_polygon; [|apply ST, IN; cbn; auto|apply ST, IN; cbn; auto|apply ST, IN; cbn; auto|auto|auto]. cbn [bind].
  set (g := [LineSegment a b; LineSegment b c; LineSegment c a]).
  assert (FG : Forall2 joins (cycle_edges [a; b; c]) g).
  { cbn. repeat (apply Forall2_cons; [left; auto|]). constructor. }
  destruct (order_spec [a; b; c] g g ltac:(cbn; lia) ND3 SEP3 FG (Permutation_refl _)) as (us & tri & EO & RE & PU & EM & _ & CLo & _).
  unfold triangle_new. rewrite EO. cbn [bind]. pose proof (Permutation_length PU) as LU. destruct us as [|x [|y [|z [|? ?]]]]; cbn in LU; try lia.
  assert (FJ : Forall2 joins (cycle_edges [x; y; z]) tri).
  { rewrite <- EM. clear. induction tri; cbn; constructor; auto. left. auto. }
  assert (AR : triangle_area tri = Ok 0).
  { rewrite (heron_area x y z tri FJ), (orient_perm _ _ (Permutation_sym PU) a b c x y z), O3, Rabs_R0; auto. f_equal. lra. }
  unfold is_triangle. destruct (negb _); [reflexivity|]. rewrite CLo. cbn [bind negb]. rewrite AR. cbn [bind]. unfold n0. ra.
  replace (Rltb 0 0) with false by (symmetry; apply Rltb_false; lra). reflexivity.
Qed.

(*@ C70_cache *)
(** C70 (every arithmetic): once the area has been returned, it is the answer for good: whatever is done with the polygon
    afterwards, every later question gets the same value. *)
Lemma area_cached : forall (A : Arith) (p : apoly A) lib in1 in2 v,
  fst (area_get lib in1 in2 p) = Ok v ->
  forall (history : list (act A)) lib' in1' in2',
    fst (area_get lib' in1' in2' (fold_left act_do history (snd (area_get lib in1 in2 p)))) = Ok v.
Proof.
  intros A p lib in1 in2 v E h lib' in1' in2'.
  assert (C : a_cache (snd (area_get lib in1 in2 p)) = Some v).
  { unfold area_get in *. destruct (a_cache p) eqn:EC; cbn in *; [congruence|]. destruct (area _ _ _ _); cbn in *; congruence. }
  revert C. generalize (snd (area_get lib in1 in2 p)). induction h as [|a h IH]; intros q C.
  - cbn. unfold area_get. rewrite C. reflexivity.
  - cbn [fold_left]. apply IH. destruct a; cbn.
    + unfold area_get. rewrite C. auto.
    + unfold a_append. destruct (append_point_at_end _ _); cbn; auto.
    + unfold a_prepend. destruct (append_point_at_beginning _ _); cbn; auto.
    + unfold a_close. destruct (MPoly.close _); cbn; auto.
Qed.

(*@ C70_fresh *)
(** C70 (every arithmetic): until a question has been answered, the area is computed from the segments of
    that moment. *)
Lemma area_fresh : forall (A : Arith) (p : apoly A) lib in1 in2, a_cache p = None ->
  fst (area_get lib in1 in2 p) = area lib in1 in2 (a_segs p).
Proof. intros A p lib in1 in2 E. unfold area_get. rewrite E. destruct (area _ _ _ _); reflexivity. Qed.
