(** Concrete cases for the choice of the rooms. *)
From Coq Require Import Reals ZArith Lra Lia Bool List Psatz Permutation.
From Verif Require Import Base Arith ArithR ArithF MPoint MLine MPoly MTri MGroup MCycles MBase Spec SpecInside SpecTri SpecCycles SpecBase
  PPoint PShape PCommon PInside PExamples POrder PMore PCorner PCollinear PEar PEar2 PArea PRel PExRel PBase PBase2.
Import ListNotations.
Local Open Scope R_scope.
#[local] Existing Instance RA.

(** ** Two triangles side by side *)
Definition d_hash X : hashing X := mkhashing (fun k _ => Z.of_nat k) (fun k l => if Nat.even k then l else rev l).
(** Only the mean of a triangle's corners is inside. *)
Definition d_inside (l : list (seg RA)) (p : pt RA) : res bool :=
  Ok (if Req_EM_T (py p) 1 then true else if Req_EM_T (py p) 2 then true else false).
Definition d_heap := tri3 (zp 0 0) (zp 4 0) (zp 4 3) ++ tri3 (zp 10 0) (zp 16 0) (zp 10 6).

Lemma mesh_one_triangle : forall inside (a b c : pt RA) l, polygon_of [a; b; c] l -> 0 < Rabs (orient a b c) ->
  separated [a; b; c] -> Forall stored [a; b; c] -> Forall (lattice 2000) [a; b; c] ->
  (forall q x, exists bo, inside q x = Ok bo) ->
  (forall x y z, Permutation [x; y; z] [a; b; c] -> inside l (mean3 x y z) = Ok true) ->
  exists t x y z, triangle_mesh (one_triangle RA) (fun _ _ => inside) l = Ok [t] /\ Permutation [x; y; z] [a; b; c] /\ grid_triangle t x y z /\
    triangle_area t = Ok (Rabs (orient a b c) / 2).
Proof.
  intros inside a b c l PO OR SEP ST LA TOT IN.
  assert (ND : NoDup [a; b; c]) by (apply corners_differ; intros E; rewrite E, Rabs_R0 in OR; lra).
  pose proof (point_set_polygon _ _ PO ND) as PS. destruct (asked_any l) as (segs & ES & AS).
  unfold triangle_mesh. rewrite ES. cbn [bind one_triangle].
  pose proof (Permutation_length PS) as LN. destruct (point_set l) as [|x [|y [|z [|? ?]]]] eqn:EP; try discriminate LN.
  assert (STx : Forall stored [x; y; z]) by (eapply Permutation_Forall; [symmetry; exact PS|auto]).
  change (map (fun p => (px p, py p)) [x; y; z]) with (map xy [x; y; z]). rewrite add_vertices_same by (auto; apply incl_refl).
  assert (ORx : 0 < Rabs (orient x y z)).
  { rewrite <- (orient_perm _ _ PS x y z a b c) by reflexivity. auto. }
  assert (NDx : NoDup [x; y; z]) by (eapply Permutation_NoDup; [symmetry; exact PS|auto]).
  assert (SEPx : separated [x; y; z]) by (apply (separated_incl [a; b; c]); auto; intros q; apply Permutation_in; auto).
  cbn [length seq combine mapM vertex nth_error bind].
  change (@px RA x, @py RA x) with (xy x). change (@px RA y, @py RA y) with (xy y). change (@px RA z, @py RA z) with (xy z).
  inversion STx as [|? ? S1 ST2]; subst. inversion ST2 as [|? ? S2 ST3]; subst. inversion ST3 as [|? ? S3 _]; subst.
  rewrite mesh_polygon by auto. cbn [bind].
  assert (PG : polygon_of [x; y; z] [LineSegment x y; LineSegment y z; LineSegment z x]).
  { eexists. split; [apply Permutation_refl|]. cbn. repeat (apply Forall2_cons; [left; auto|]). constructor. }
  destruct (triangle_of x y z _ NDx SEPx PG ORx) as (tri & -> & RE & PT & AR & PS'). cbn [bind].
  destruct (mesh_ok_spec (fun _ => inside) [a; b; c] l x y z tri PO SEP NDx) as [M1 M2]; auto.
  { intros q. apply Permutation_in. auto. }
  destruct (M2 ltac:(intros _; exact TOT)) as (f & E). rewrite E. cbn [bind].
  destruct (M1 f E) as (t0 & _ & _ & DF). destruct f.
  2:{ exfalso. destruct (DF eq_refl) as [K|(q & n & Iq & Nq & _)]; [rewrite IN in K by auto; discriminate|].
      apply Nq. apply (Permutation_in _ (Permutation_sym PS)). auto. }
  exists tri, x, y, z. split; [reflexivity|]. split; [auto|].
  split; [|rewrite AR, (orient_perm _ _ PS x y z a b c) by reflexivity; reflexivity]. split; [auto|]. split; [|split].
  - destruct RE as (g' & PP & F2). apply Forall_forall. intros s I. destruct (Forall2_In_r _ _ _ _ _ s (Forall2_swap _ _ _ _ _ F2) I) as (s' & I' & K).
    apply (Permutation_in _ PP) in I'. assert (sc s' = CLineSegment) by (cbn in I'; decompose [or] I'; subst; try contradiction; reflexivity).
    destruct K as [->| ->]; auto.
  - eapply Permutation_Forall; [symmetry; exact PS|auto].
  - intros E0. rewrite E0, Rabs_R0 in ORx. lra.
Qed.

Lemma d_loops : loops d_heap [[0; 1; 2]; [3; 4; 5]]%nat.
Proof.
  split; [|split; [|split]].
  - exists CLineSegment. intros s I. cbn in I. decompose [or] I; subst; try contradiction; reflexivity.
  - apply (zp_sep [(0, 0); (4, 0); (4, 0); (4, 3); (4, 3); (0, 0); (10, 0); (16, 0); (16, 0); (10, 6); (10, 6); (10, 0)]%Z).
  - assert (K : forall l vs, Forall2 joins (cycle_edges vs) l -> length vs = 3%nat -> NoDup vs -> separated vs -> cycle_of l vs).
    { intros l vs F L ND SP. split; [lia|]. split; auto. split; auto. exists l. auto. }
    intros p [<-|[<-|[]]]; (split; [repeat constructor; cbn; lia|]); (split; [cbn; intros; lia|]).
    + exists [zp 0 0; zp 4 0; zp 4 3]. apply K; [cbn; repeat (apply Forall2_cons; [left; auto|]); constructor|reflexivity| |apply (zp_sep [(0, 0); (4, 0); (4, 3)]%Z)].
      repeat constructor; cbn; intros I; decompose [or] I; try contradiction; eapply zp_neq; try eassumption; reflexivity.
    + exists [zp 10 0; zp 16 0; zp 10 6]. apply K; [cbn; repeat (apply Forall2_cons; [left; auto|]); constructor|reflexivity| |apply (zp_sep [(10, 0); (16, 0); (10, 6)]%Z)].
      repeat constructor; cbn; intros I; decompose [or] I; try contradiction; eapply zp_neq; try eassumption; reflexivity.
  - assert (N : forall a b c d x y z u, (a =? x)%Z && (b =? y)%Z = false -> seg_eqb (LineSegment (zp a b) (zp c d)) (LineSegment (zp x y) (zp z u)) = false).
    { intros. unfold seg_eqb. cbn [si sj LineSegment]. rewrite <- !zp_eqb. rewrite H. rewrite andb_false_r. reflexivity. }
    intros [|[|?]] [|[|?]] p q D E1 E2; cbn in E1, E2; try congruence; try (destruct n; discriminate); injection E1 as <-; injection E2 as <-.
    + cbn. rewrite N by reflexivity. reflexivity.
    + cbn. rewrite N by reflexivity. reflexivity.
Qed.

Lemma mean_y : forall x y z a b c : pt RA, Permutation [x; y; z] [a; b; c] -> py (mean3 x y z) = Rround8 ((py a + py b + py c) / 3).
Proof.
  intros x y z a b c P.
  assert (E : forall l l', Permutation l l' -> fold_right Rplus 0 (map (@py RA) l) = fold_right Rplus 0 (map (@py RA) l')).
  { clear. induction 1; cbn [map fold_right]; lra. }
  specialize (E _ _ P). cbn [map fold_right] in E. unfold mean3. cbn [Point_new py]. change (Rround8 ((py x + py y + py z) / 3) = Rround8 ((py a + py b + py c) / 3)).
  f_equal. cbn in *. lra.
Qed.

Definition d_tris (k : nat) : list (list (seg RA)) :=
  match triangle_mesh (one_triangle RA) (fun _ _ => d_inside) (loop d_heap [[0; 1; 2]; [3; 4; 5]]%nat k) with Ok t => t | Err _ => [] end.
Definition d_area (k : nat) : R := match k with 0%nat => 6 | _ => 18 end.

Lemma d_mesh : forall k a b c, loop d_heap [[0; 1; 2]; [3; 4; 5]]%nat k = tri3 a b c -> grid_triangle (tri3 a b c) a b c ->
  separated [a; b; c] -> Forall stored [a; b; c] -> (py a + py b + py c = 3 \/ py a + py b + py c = 6) -> on_grid (Rabs (orient a b c) / 2) ->
  exists t x y z, d_tris k = [t] /\ Permutation [x; y; z] [a; b; c] /\ grid_triangle t x y z /\
    triangle_mesh (one_triangle RA) (fun _ _ => d_inside) (tri3 a b c) = Ok [t] /\
    triangle_area t = Ok (Rabs (orient a b c) / 2) /\
    area (one_triangle RA) (fun _ _ => d_inside) (fun _ _ => d_inside) (tri3 a b c) = Ok (Rabs (orient a b c) / 2).
Proof.
  intros k a b c EL G SP ST YS OG. pose proof G as (PO & _ & LA & OR).
  destruct (mesh_one_triangle d_inside a b c (tri3 a b c)) as (t & x & y & z & E & P & GT & AR); auto.
  - apply Rabs_pos_lt. auto.
  - intros q p. eexists. reflexivity.
  - intros x y z P. unfold d_inside. rewrite (mean_y _ _ _ _ _ _ P). f_equal.
    destruct YS as [-> | ->].
    + rewrite Rround8_id by (exists 100000000%Z; lra). destruct (Req_EM_T (3 / 3) 1); auto. exfalso. lra.
    + rewrite Rround8_id by (exists 200000000%Z; lra). destruct (Req_EM_T (6 / 3) 1); auto. destruct (Req_EM_T (6 / 3) 2); auto. exfalso. lra.
  - exists t, x, y, z. split; [unfold d_tris; rewrite EL, E; reflexivity|]. repeat (split; [assumption|]).
    unfold area, detailled_area. rewrite E. cbn [bind mapM]. rewrite AR. cbn [bind]. rewrite nsum_R. cbn [fold_right]. f_equal.
    change (Rround8 (Rabs (orient a b c) / 2 + 0) = Rabs (orient a b c) / 2). rewrite Rplus_0_r. apply Rround8_id. auto.
Qed.

(** Points on the triangle have x between those of its corners. *)
Lemma side_x : forall (t : list (seg RA)) x y z s q lo hi, polygon_of [x; y; z] t -> In s t -> on_segment (si s) (sj s) q ->
  (forall v, In v [x; y; z] -> lo <= px v <= hi) -> lo <= px q <= hi.
Proof.
  intros t x y z s q lo hi PO I (m & M & ->) B.
  assert (B1 : lo <= px (si s) <= hi) by (apply B, (polygon_ends _ _ PO), in_flat_map; exists s; cbn; auto).
  assert (B2 : lo <= px (sj s) <= hi) by (apply B, (polygon_ends _ _ PO), in_flat_map; exists s; cbn; auto).
  unfold along. cbn [px]. cbn in B1, B2 |- *. nra.
Qed.

(*@ex C74_all_example *)
(** Two triangles side by side, of areas 6 and 18: the hypotheses hold and both are returned, even with
    hashes that change from call to call. *)
Example keep_all_example : let ids := [[0; 1; 2]; [3; 4; 5]]%nat in
  loops d_heap ids /\ triangulated (one_triangle RA) d_inside d_heap ids d_tris d_area /\
  (forall k t, (k < 2)%nat -> In t (d_tris k) -> exists a, triangle_area t = Ok a) /\
  (forall x, (x < 2)%nat -> ~ repeated d_heap ids x /\ ~ sums_up d_tris d_area 2 x) /\
  clash_free d_inside (flat_map d_tris (seq 0 2)) /\
  exists rooms, keep_base_polygons (d_hash nat) (d_hash (list nat)) (one_triangle RA) d_inside d_heap ids = Ok (Some rooms) /\
    Forall2 (fun p r => room_of r (value d_heap p)) ids rooms.
Proof.
  intros ids. pose proof d_loops as LP.
  assert (O0 : orient (zp 0 0) (zp 4 0) (zp 4 3) = 12) by (unfold orient, zp; cbn [px py]; lra).
  assert (O1 : orient (zp 10 0) (zp 16 0) (zp 10 6) = 36) by (unfold orient, zp; cbn [px py]; lra).
  assert (G0 : grid_triangle (tri3 (zp 0 0) (zp 4 0) (zp 4 3)) (zp 0 0) (zp 4 0) (zp 4 3)) by (apply tri3_grid; [lia|rewrite O0; lra]).
  assert (G1 : grid_triangle (tri3 (zp 10 0) (zp 16 0) (zp 10 6)) (zp 10 0) (zp 16 0) (zp 10 6)) by (apply tri3_grid; [lia|rewrite O1; lra]).
  assert (A0 : Rabs 12 / 2 = 6) by (rewrite Rabs_right by lra; lra). assert (A1 : Rabs 36 / 2 = 18) by (rewrite Rabs_right by lra; lra).
  destruct (d_mesh 0 (zp 0 0) (zp 4 0) (zp 4 3)) as (t & x & y & z & ET & PT & GT & ME & AT & AR); auto.
  { apply (zp_sep [(0, 0); (4, 0); (4, 3)]%Z). } { repeat (apply Forall_cons; [apply zp_stored|]). constructor. }
  { left. cbn. lra. } { rewrite O0, A0. exists 600000000%Z. lra. }
  destruct (d_mesh 1 (zp 10 0) (zp 16 0) (zp 10 6)) as (u & x' & y' & z' & EU & PU & GU & MU & AU & AS); auto.
  { apply (zp_sep [(10, 0); (16, 0); (10, 6)]%Z). } { repeat (apply Forall_cons; [apply zp_stored|]). constructor. }
  { right. cbn. lra. } { rewrite O1, A1. exists 1800000000%Z. lra. }
  rewrite O0, A0 in *. rewrite O1, A1 in *.
  assert (TR : triangulated (one_triangle RA) d_inside d_heap ids d_tris d_area).
  { intros [|[|k]] L; [| |cbn in L; lia]; (split; [|auto]).
    - rewrite ET. exact ME.
    - rewrite EU. exact MU. }
  assert (TA : forall k v, (k < 2)%nat -> In v (d_tris k) -> exists a, triangle_area v = Ok a).
  { intros [|[|k]] v L I; [| |lia]; [rewrite ET in I|rewrite EU in I]; destruct I as [<-|[]]; eauto. }
  assert (NR : forall k, (k < 2)%nat -> ~ repeated d_heap ids k /\ ~ sums_up d_tris d_area 2 k).
  { intros k L. split.
    - intros (j & L' & D & (_ & K)). cbn in L'.
      assert (F : forall a b c d e f : Z * Z, forallb (fun v => negb (Z.eqb (fst a) (fst v) && Z.eqb (snd a) (snd v))) [d; e; f] = true ->
        (exists v, In v (tri3 (zp (fst d) (snd d)) (zp (fst e) (snd e)) (zp (fst f) (snd f))) /\
           (LineSegment (zp (fst a) (snd a)) (zp (fst b) (snd b)) = v \/ LineSegment (zp (fst a) (snd a)) (zp (fst b) (snd b)) = mkseg (sc v) (sj v) (si v))) -> False).
      { intros a b c d e f H (v & Iv & E). cbn [forallb] in H. rewrite !andb_true_iff, !negb_true_iff in H. destruct H as (H1 & H2 & H3 & _).
        cbn in Iv. decompose [or] Iv; subst; try contradiction; destruct E as [E|E]; apply (f_equal si) in E; cbn [si sj LineSegment] in E;
        revert E; apply zp_neq; assumption. }
      destruct k as [|[|k]]; [| |lia]; destruct j as [|[|j]]; try lia; try congruence.
      + apply (F (0, 0)%Z (4, 0)%Z (4, 3)%Z (10, 0)%Z (16, 0)%Z (10, 6)%Z eq_refl). apply (K (LineSegment (zp 0 0) (zp 4 0))). cbn. auto.
      + apply (F (10, 0)%Z (16, 0)%Z (10, 6)%Z (0, 0)%Z (4, 0)%Z (4, 3)%Z eq_refl). apply (K (LineSegment (zp 10 0) (zp 16 0))). cbn. auto.
    - intros (c & a & SC & L2 & (as_ & F & ->) & B).
      assert (c = [0; 1]%nat) as ->.
      { cbn in SC. inversion SC as [|? ? ? S1|? ? ? S1]; subst; inversion S1 as [|? ? ? S2|? ? ? S2]; subst; inversion S2; subst; cbn in L2; try lia. reflexivity. }
      cbn [flat_map] in F. rewrite ET, EU in F. cbn [app] in F. inversion F as [|? a1 ? r1 F1 F2]; subst. inversion F2 as [|? a2 ? r2 F3 F4]; subst. inversion F4; subst.
      rewrite AT in F1. rewrite AU in F3. injection F1 as <-. injection F3 as <-. cbn [fold_right] in B.
      assert (d_area k <= 18) by (destruct k; cbn; lra). rewrite Rabs_left in B by lra. lra. }
  assert (CF : clash_free d_inside (flat_map d_tris (seq 0 2))).
  { cbn [seq flat_map]. rewrite ET, EU. cbn [app]. constructor; [|constructor; [constructor|constructor]]. constructor; [|constructor].
    assert (XT : forall v, In v [x; y; z] -> 0 <= px v <= 4).
    { intros v I. apply (Permutation_in _ PT) in I. cbn in I. decompose [or] I; subst; try contradiction; cbn; lra. }
    assert (XU : forall v, In v [x'; y'; z'] -> 10 <= px v <= 16).
    { intros v I. apply (Permutation_in _ PU) in I. cbn in I. decompose [or] I; subst; try contradiction; cbn; lra. }
    split.
    - destruct (congruent t u) eqn:E; auto. exfalso. apply (congruent_spec _ _ _ _ _ _ _ _ GT GU) in E.
      assert (In x [x'; y'; z']) as K by (apply (Permutation_in _ E); cbn; auto). apply XU in K. assert (0 <= px x <= 4) by (apply XT; cbn; auto). cbn in *. lra.
    - destruct (overlap_spec (fun _ => d_inside) _ _ _ _ _ _ _ _ GT GU) as (C1 & _ & C3).
      destruct C3 as (r & E); [intros; eexists; reflexivity|intros; eexists; reflexivity|]. rewrite E. destruct r; auto. exfalso.
      assert (NI : forall l q, In q [x; y; z; x'; y'; z'] -> d_inside l q = Ok true -> False).
      { intros l q I K. assert (J : In q ([zp 0 0; zp 4 0; zp 4 3] ++ [zp 10 0; zp 16 0; zp 10 6])).
        { apply (Permutation_in _ (Permutation_app PT PU)). exact I. }
        unfold d_inside in K. cbn in J. decompose [or] J; subst; try contradiction; cbn [py zp] in K;
        repeat match type of K with context [Req_EM_T ?a ?b] => destruct (Req_EM_T a b) as [Q|Q]; [lra|clear Q] end; discriminate. }
      destruct (C1 E) as [(n & q & [[I K]|[I K]])|(p & s & q & I & J & M & _)].
      + apply (NI _ q) in K; auto. cbn in *. tauto.
      + apply (NI _ q) in K; auto. cbn in *. tauto.
      + assert (Q : Spec.shared p s q) by (apply M; auto). destruct Q as [Q1 Q2].
        pose proof (side_x t x y z p q 0 4 (proj1 GT) I Q1 XT). pose proof (side_x u x' y' z' s q 10 16 (proj1 GU) J Q2 XU). lra. }
  repeat (split; [assumption|]).
  apply (keep_all (d_hash nat) (d_hash (list nat)) (one_triangle RA) d_inside d_heap ids d_tris d_area); auto.
  intros k l. cbn. destruct (Nat.even k); [auto|]. apply Permutation_sym, Permutation_rev.
Qed.

(** ** Binary64 *)
Definition fixed X : hashing X := mkhashing (fun _ _ => 0%Z) (fun _ l => l).
Definition changing X : hashing X := mkhashing (fun k _ => Z.of_nat k) (fun _ l => l).
Definition some_draws (L : Libm) : nat -> @num (FA L) * @num (FA L) :=
  fun k => (@ndiv (FA L) (nofZ 3) (nofZ 10), @ndiv (FA L) (nofZ (2 + Z.of_nat k)) (nofZ 10)).
Definition rooms_of (L : Libm) (H : forall X, hashing X) (ts : list (list (Z * Z))) : res (option (list (list (seg (FA L))))) :=
  keep_base_polygons (H nat) (H (list nat)) (one_triangle (FA L)) (decided_by (some_draws L)) (triangle_loops (FA L) ts) (triangle_ids ts).
Fixpoint fpolys_same {L} (l m : list (list (seg (FA L)))) : bool :=
  match l, m with [], [] => true | p :: l', q :: m' => fpoly_same p q && fpolys_same l' m' | _, _ => false end.
Lemma fpolys_same_eq : forall L (l m : list (list (seg (FA L)))), fpolys_same l m = true -> l = m.
Proof.
  induction l as [|p l IH]; intros [|q m] H; try discriminate; auto.
  apply andb_true_iff in H as [H1 H2]. apply fpoly_same_eq in H1. apply IH in H2. congruence.
Qed.
Lemma rooms_check : forall L (r : res (option (list (list (seg (FA L)))))) m,
  match r with Ok (Some l) => fpolys_same l m | _ => false end = true -> r = Ok (Some m).
Proof. intros L [[l|]|] m H; try discriminate. apply fpolys_same_eq in H. congruence. Qed.
Lemma raised_check : forall X (r : res X), match r with Err OtherException => true | _ => false end = true -> r = Err OtherException.
Proof. intros X [?|[]]; discriminate || reflexivity. Qed.

(*@ex C74_rooms_example *)
(** Two triangles side by side, and a triangle in another: both are returned. *)
Example keep_rooms_example : forall L,
  rooms_of L fixed [[(1, 1); (10, 2); (3, 8)]; [(20, 1); (30, 3); (21, 9)]]%Z =
    Ok (Some [cycle_poly (zpts (FA L) [(1, 1); (10, 2); (3, 8)]%Z); cycle_poly (zpts (FA L) [(20, 1); (30, 3); (21, 9)]%Z)]) /\
  rooms_of L fixed [[(1, 1); (40, 2); (3, 38)]; [(5, 6); (15, 8); (7, 17)]]%Z =
    Ok (Some [cycle_poly (zpts (FA L) [(1, 1); (40, 2); (3, 38)]%Z); cycle_poly (zpts (FA L) [(5, 6); (15, 8); (7, 17)]%Z)]).
Proof. intros L. split; apply rooms_check; vm_compute; reflexivity. Qed.

(*@ C74_nested_refuted *)
(** C74 (finding), binary64: three triangles, each inside the one before, raise an exception. *)
Lemma keep_nested : forall L,
  rooms_of L fixed [[(1, 1); (40, 2); (3, 38)]; [(3, 4); (30, 7); (7, 27)]; [(8, 9); (15, 10); (9, 17)]]%Z = Err OtherException.
Proof. intros L. apply raised_check. vm_compute. reflexivity. Qed.

(*@ C74_hash_refuted *)
(** C74 (finding), binary64: a triangle found in both directions is returned once if hash() does not change
    from call to call; if it does (as for the polygons of this program) an exception is raised. *)
Lemma keep_hash : forall L,
  rooms_of L fixed [[(1, 1); (10, 2); (3, 8)]; [(1, 1); (3, 8); (10, 2)]]%Z =
    Ok (Some [cycle_poly (zpts (FA L) [(1, 1); (3, 8); (10, 2)]%Z)]) /\
  rooms_of L changing [[(1, 1); (10, 2); (3, 8)]; [(1, 1); (3, 8); (10, 2)]]%Z = Err OtherException.
Proof. intros L. split; [apply rooms_check|apply raised_check]; vm_compute; reflexivity. Qed.

(*@ C74_lost_refuted *)
(** C74 (finding), binary64: of three separate triangles of areas 27.5, 14.5 and 42 the third is lost,
    because its area is the sum of the other two. *)
Lemma keep_lost : forall L,
  rooms_of L fixed [[(1, 1); (9, 2); (2, 8)]; [(20, 1); (25, 2); (21, 7)]; [(51, 2); (63, 2); (50, 9)]]%Z =
    Ok (Some [cycle_poly (zpts (FA L) [(1, 1); (9, 2); (2, 8)]%Z); cycle_poly (zpts (FA L) [(20, 1); (25, 2); (21, 7)]%Z)]).
Proof. intros L. apply rooms_check. vm_compute. reflexivity. Qed.
