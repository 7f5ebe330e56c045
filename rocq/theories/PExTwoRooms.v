(** A vessel of two cones with a plate between them meets all the hypotheses of C100. *)
From Coq Require Import String Reals ZArith Lra Lia Bool List Psatz Permutation Arith.
From Verif Require Import Base Arith ArithR ArithF MPoint MLine MPoly MTri MGroup MCycles MBase MContain MRaum MRooms MVessel
  Spec SpecInside SpecTri SpecGroup SpecCycles SpecLoops SpecBase SpecRooms SpecRing SpecContain SpecHeap SpecStack SpecPlate SpecPlateRooms SpecWhole SpecStackWhole SpecPlateWhole
  PPoint PShape PCommon PInside PExamples POrder PMore PCorner PCollinear PEar PEar2 PArea PRel PExRel.
From Verif Require PWalk PExBase PExContain PPlateRooms PStack PStackWhole PPlateWhole PMake.
Import ListNotations.
Local Open Scope list_scope.
Local Open Scope R_scope.
#[local] Existing Instance RA.

(** ** Triangles on two sides of a line *)
Definition parted (l m : list (pt RA)) : Prop := exists u v w, let f (p : pt RA) := u * px p + v * py p + w in
  (forall p, In p l -> f p <= 0) /\ (forall p, In p m -> 0 <= f p) /\
  ((exists a, forall p, In p l -> f p = 0 -> p = a) \/ (exists a, forall p, In p m -> f p = 0 -> p = a) \/ (exists a b, forall p, In p (l ++ m) -> f p = 0 -> p = a \/ p = b)).
Lemma parted_sym : forall l m, parted l m -> parted m l.
Proof.
  intros l m (u & v & w & A & B & C). exists (- u), (- v), (- w). cbv zeta in *.
  assert (E : forall p : pt RA, - u * px p + - v * py p + - w = - (u * px p + v * py p + w)) by (intros [x y]; cbn; lra).
  split; [|split].
  - intros p I. rewrite E. apply B in I. lra.
  - intros p I. rewrite E. apply A in I. lra.
  - destruct C as [(a & C)|[(a & C)|(a & b & C)]]; [right; left; exists a|left; exists a|right; right; exists a, b]; intros p I Z; apply C; auto; try (rewrite E in Z; lra).
    rewrite in_app_iff in *. tauto.
Qed.
Lemma along_self : forall (a : pt RA) m, along a a m = a.
Proof. intros [x y] m. unfold along. cbn. f_equal; lra. Qed.
Lemma parted_meet : forall l m (x y : seg RA) q, parted l m -> In (si x) l -> In (sj x) l -> In (si y) m -> In (sj y) m -> meet_at x y q -> In q (l ++ m).
Proof.
  intros l m x y q (u & v & w & A & B & C) X1 X2 Y1 Y2 M. cbv zeta in *. set (f := fun p : pt RA => u * px p + v * py p + w).
  assert (Q : Spec.shared x y q) by (apply M; auto). destruct Q as [(k & K & E) (n & N & E')].
  assert (F1 : f q = (1 - k) * f (si x) + k * f (sj x)) by (rewrite E; unfold f, along; cbn; ring).
  assert (F2 : f q = (1 - n) * f (si y) + n * f (sj y)) by (rewrite E'; unfold f, along; cbn; ring).
  pose proof (A _ X1) as A1. pose proof (A _ X2) as A2. pose proof (B _ Y1) as B1. pose proof (B _ Y2) as B2.
  fold (f (si x)) in A1. fold (f (sj x)) in A2. fold (f (si y)) in B1. fold (f (sj y)) in B2.
  assert (Z1 : (1 - k) * f (si x) <= 0) by (cbn in *; nra). assert (Z2 : k * f (sj x) <= 0) by (cbn in *; nra).
  assert (Z3 : 0 <= (1 - n) * f (si y)) by (cbn in *; nra). assert (Z4 : 0 <= n * f (sj y)) by (cbn in *; nra).
  assert (W1 : (1 - k) * f (si x) = 0) by (cbn in *; lra). assert (W2 : k * f (sj x) = 0) by (cbn in *; lra).
  assert (W3 : (1 - n) * f (si y) = 0) by (cbn in *; lra). assert (W4 : n * f (sj y) = 0) by (cbn in *; lra).
  assert (ENDS : forall (p p' : pt RA) (r : R), along p p' 0 = p /\ along p p' 1 = p') by (intros [p1 p2] [r1 r2] _; unfold along; cbn; split; f_equal; lra).
  rewrite in_app_iff.
  apply Rmult_integral in W1 as [W1|W1]; [replace k with 1 in E by (cbn in *; lra); rewrite (proj2 (ENDS _ _ 0)) in E; rewrite E; auto|].
  apply Rmult_integral in W2 as [W2|W2]; [rewrite W2, (proj1 (ENDS _ _ 0)) in E; rewrite E; auto|].
  apply Rmult_integral in W3 as [W3|W3]; [replace n with 1 in E' by (cbn in *; lra); rewrite (proj2 (ENDS _ _ 0)) in E'; rewrite E'; auto|].
  apply Rmult_integral in W4 as [W4|W4]; [rewrite W4, (proj1 (ENDS _ _ 0)) in E'; rewrite E'; auto|].
  assert (SX : si x = sj x -> q = si x) by (intros H; rewrite E, <- H; apply along_self).
  assert (SY : si y = sj y -> q = si y) by (intros H; rewrite E', <- H; apply along_self).
  assert (SH : forall p, In p [si x; sj x] -> In p [si y; sj y] -> p = q).
  { assert (ON : forall (s : seg RA) p, In p [si s; sj s] -> on_segment (si s) (sj s) p).
    { intros s p [<-|[<-|[]]]; [exists 0|exists 1]; (split; [lra|]); symmetry; apply (ENDS _ _ 0). }
    intros p I J. apply M. split; apply ON; auto. }
  destruct C as [(a & C)|[(a & C)|(a & b & C)]].
  - rewrite (SX); [auto|]. rewrite (C _ X1 W1), (C _ X2 W2). reflexivity.
  - rewrite (SY); [auto|]. rewrite (C _ Y1 W3), (C _ Y2 W4). reflexivity.
  - destruct (C (si x) ltac:(apply in_or_app; auto) W1) as [P1|P1]; destruct (C (sj x) ltac:(apply in_or_app; auto) W2) as [P2|P2];
      try (rewrite SX by congruence; auto);
      (destruct (C (si y) ltac:(apply in_or_app; auto) W3) as [P3|P3]; destruct (C (sj y) ltac:(apply in_or_app; auto) W4) as [P4|P4];
       try (rewrite SY by congruence; auto)); rewrite <- (SH (si x)) by (cbn; auto; try (left; congruence); right; left; congruence); auto.
Qed.
Lemma pair_free : forall inside t a b c u d e f w, grid_triangle t a b c -> grid_triangle u d e f -> parted [a; b; c] [d; e; f] -> In w [a; b; c] -> ~ In w [d; e; f] ->
  (forall l q, exists r, inside l q = Ok r) -> (forall l q, In q [a; b; c; d; e; f] -> inside l q = Ok false) -> Forall stored [a; b; c; d; e; f] ->
  congruent t u = false /\ MTri.overlap (fun _ => inside) t u = Ok false.
Proof.
  intros inside t a b c u d e f w G1 G2 PA W1 W2 TOT NI ST. split.
  - destruct (congruent t u) eqn:E; auto. exfalso. apply (congruent_spec _ _ _ _ _ _ _ _ G1 G2) in E. apply W2. apply (Permutation_in _ E). auto.
  - destruct (overlap_spec (fun _ => inside) _ _ _ _ _ _ _ _ G1 G2) as (C1 & _ & C3).
    destruct C3 as (r & E); [intros; apply TOT|intros; apply TOT|]. rewrite E. destruct r; auto. exfalso.
    destruct (C1 E) as [(n & q & [[I K]|[I K]])|(x & y & q & I & J & M & V)].
    + rewrite NI in K; [discriminate|]. cbn in *. tauto.
    + rewrite NI in K; [discriminate|]. cbn in *. tauto.
    + assert (ENDS : forall s t', In s t' -> In (si s) (flat_map ij t') /\ In (sj s) (flat_map ij t')) by (intros s t' Z; split; apply in_flat_map; exists s; cbn; auto).
      destruct (ENDS _ _ I) as [I1 I2]. destruct (ENDS _ _ J) as [J1 J2]. rewrite (polygon_ends _ _ (proj1 G1)) in I1, I2. rewrite (polygon_ends _ _ (proj1 G2)) in J1, J2.
      pose proof (parted_meet _ _ x y q PA I1 I2 J1 J2 M) as IQ. cbn [app] in IQ. specialize (V q IQ). rewrite Forall_forall in ST. destruct (ST q IQ) as [(k1 & K1) (k2 & K2)].
      rewrite (Rround8_id (px q)), (Rround8_id (py q)) in V by (solve [exists k1; rewrite K1; f_equal; lra | exists k2; rewrite K2; f_equal; lra]).
      replace (px q - px q) with 0 in V by (cbn; lra). replace (py q - py q) with 0 in V by (cbn; lra). rewrite Rabs_R0 in V. lra.
Qed.

(** ** Meshes of which every triangle is kept *)
Lemma mesh_sure : forall inside l vs ap k ijk a b c, polygon_of vs l -> separated vs -> Forall stored vs -> Forall (lattice 2000) vs -> Permutation ap vs ->
  numbered ap ijk (a, b, c) -> orient a b c <> 0 -> (forall q x, exists bo, inside q x = Ok bo) -> inside l (mean3 a b c) = Ok true -> (forall q v, In v vs -> inside q v = Ok false) ->
  exists t, mesh_of (fun _ _ => inside) l ap (k, ijk) = Ok [t] /\ grid_triangle t a b c /\ triangle_area t = Ok (Rabs (orient a b c) / 2).
Proof.
  intros inside l vs ap k [[i j] m] a b c PO SEP ST LA P (N1 & N2 & N3) OR TOT IN NI. unfold mesh_of, vertex. rewrite N1, N2, N3. cbn [bind].
  assert (INC : incl [a; b; c] vs).
  { intros x [<-|[<-|[<-|[]]]]; apply (Permutation_in _ P); eapply nth_error_In; eauto. }
  assert (ND : NoDup [a; b; c]) by (apply corners_differ; auto).
  assert (SEP3 : separated [a; b; c]) by (apply (separated_incl vs); auto).
  rewrite Forall_forall in ST, LA.
  change (@px RA a, @py RA a) with (xy a). change (@px RA b, @py RA b) with (xy b). change (@px RA c, @py RA c) with (xy c).
  rewrite mesh_polygon; [|apply ST, INC; cbn; auto|apply ST, INC; cbn; auto|apply ST, INC; cbn; auto|auto|auto]. cbn [bind].
  assert (PG : polygon_of [a; b; c] [LineSegment a b; LineSegment b c; LineSegment c a]).
  { eexists. split; [apply Permutation_refl|]. cbn. repeat (apply Forall2_cons; [left; auto|]). constructor. }
  assert (ORP : 0 < Rabs (orient a b c)) by (apply Rabs_pos_lt; auto).
  destruct (triangle_of a b c _ ND SEP3 PG ORP) as (tri & -> & RE & PT & AR & PS). cbn [bind].
  destruct (mesh_ok_spec (fun _ => inside) vs l a b c tri PO SEP ND INC PT AR ORP) as [M1 M2].
  destruct (M2 ltac:(intros _; exact TOT)) as (f & E). rewrite E. cbn [bind].
  destruct (M1 f E) as (t0 & _ & _ & DF). destruct f.
  2:{ exfalso. destruct (DF eq_refl) as [K|(q & n & Iq & _ & K)]; [rewrite IN in K; discriminate|rewrite NI in K by auto; discriminate]. }
  exists tri. split; [reflexivity|]. split; [|exact AR]. split; [auto|]. split; [|split; [|auto]].
  - destruct RE as (g' & PP & F2). apply Forall_forall. intros s I. destruct (Forall2_In_r _ _ _ _ _ s (Forall2_swap _ _ _ _ _ F2) I) as (s' & I' & K).
    apply (Permutation_in _ PP) in I'. assert (sc s' = CLineSegment) by (cbn in I'; decompose [or] I'; subst; try contradiction; reflexivity).
    destruct K as [->| ->]; auto.
  - apply Forall_forall. intros x I. apply LA, INC, I.
Qed.
Definition tri_at (t : list (seg RA)) (abc : pt RA * pt RA * pt RA) : Prop := let '(a, b, c) := abc in grid_triangle t a b c /\ triangle_area t = Ok (Rabs (orient a b c) / 2).
Lemma mesh_whole : forall (lib : mesh_lib RA) inside l vs tris, polygon_of vs l -> NoDup vs -> separated vs -> Forall stored vs -> Forall (lattice 2000) vs ->
  (forall ap segs, Permutation ap vs -> exists ts, lib (map xy ap) segs = Some (map xy ap, ts) /\ Forall2 (numbered ap) ts tris) ->
  Forall (fun '(a, b, c) => orient a b c <> 0 /\ forall q, inside q (mean3 a b c) = Ok true) tris ->
  (forall q x, exists bo, inside q x = Ok bo) -> (forall q v, In v vs -> inside q v = Ok false) ->
  exists us, triangle_mesh lib (fun _ _ => inside) l = Ok us /\ Forall2 tri_at us tris.
Proof.
  intros lib inside l vs tris PO ND SEP ST LA LIB GOOD TOT NI. pose proof (point_set_polygon vs l PO ND) as PS.
  destruct (asked_any l) as (segs & ES & _). destruct (LIB (point_set l) segs PS) as (ts & LS & NU).
  assert (SAME : fold_left add_vertex (map xy (point_set l)) (point_set l) = point_set l).
  { apply add_vertices_same; [|intros x; auto]. rewrite Forall_forall in *. intros x I. apply ST. apply (Permutation_in _ PS). auto. }
  assert (ALL : forall k, exists us, mapM (mesh_of (fun _ _ => inside) l (point_set l)) (combine (seq k (length ts)) ts) = Ok (map (fun t => [t]) us) /\ Forall2 tri_at us tris).
  { clear LS LIB. induction NU as [|ijk [[a b] c] ts' tris' N NU IH]; intros k; [exists []; split; [reflexivity|constructor]|].
    inversion GOOD as [|? ? G0 G3]; subst. cbv beta iota in G0. destruct G0 as [G1 G2]. destruct (IH G3 (S k)) as (us & E & F).
    destruct (mesh_sure inside l vs (point_set l) k ijk a b c PO SEP ST LA PS N G1 TOT (G2 l) NI) as (t & Et & Gt & At).
    exists (t :: us). split; [|constructor; [split; auto|auto]]. cbn [length seq combine mapM]. rewrite Et. cbn [bind]. rewrite E. reflexivity. }
  destruct (ALL 0%nat) as (us & E & F). exists us. split; auto.
  unfold triangle_mesh. rewrite ES. cbn [bind]. match goal with |- context [lib ?m segs] => change (lib m segs) with (lib (map xy (point_set l)) segs) end. rewrite LS.
  match goal with |- context [fold_left (@add_vertex RA) ?m ?q] => change (fold_left (@add_vertex RA) m q) with (fold_left (@add_vertex RA) (map xy (point_set l)) (point_set l)) end. rewrite SAME.
  change ((kept <- mapM (mesh_of (fun _ _ => inside) l (point_set l)) (combine (seq 0 (length ts)) ts) ;; Ok (concat kept)) = Ok us). rewrite E. cbn [bind]. f_equal.
  clear. induction us; simpl; congruence.
Qed.

(** ** The vessel *)
Definition pA := zp (-2) 3. Definition pB := zp (-1) 0. Definition pC := zp 1 0. Definition pD := zp 2 3. Definition pE := zp (-1) 6. Definition pG := zp 1 6.
Definition lower_tris := [(pA, pB, pC); (pA, pC, pD)].
Definition upper_tris := [(pA, pE, pG); (pA, pG, pD)].
Fixpoint find_at (n : nat) (vs : list (R * R)) (p : pt RA) : option nat :=
  match vs with
  | [] => None
  | (x, y) :: r => if Req_EM_T x (px p) then if Req_EM_T y (py p) then Some n else find_at (S n) r p else find_at (S n) r p
  end.
(** A triangulation library: it finds those of the four triangles whose corners it is given. *)
Definition t_lib : mesh_lib RA := fun vs _ => Some (vs, flat_map (fun '(a, b, c) =>
  match find_at 0 vs a, find_at 0 vs b, find_at 0 vs c with Some i, Some j, Some k => [(i, j, k)] | _, _, _ => [] end) (lower_tris ++ upper_tris)).
(** Answers about inner points by the height. *)
Definition t_inside (l : list (seg RA)) (p : pt RA) : res bool :=
  Ok (if Req_EM_T (py p) 1 then true else if Req_EM_T (py p) 2 then true else if Req_EM_T (py p) 4 then true else if Req_EM_T (py p) 5 then true else false).
Lemma find_in : forall ap p n, In p ap -> exists i, find_at n (map xy ap) p = Some (n + i)%nat /\ nth_error ap i = Some p.
Proof.
  induction ap as [|[x y] ap IH]; intros [u v] n I; [destruct I|]. cbn [map xy px py find_at].
  destruct (Req_EM_T x u) as [->|D]; [destruct (Req_EM_T y v) as [->|D]|].
  - exists 0%nat. rewrite Nat.add_0_r. auto.
  - destruct I as [I|I]; [injection I; intros; congruence|]. destruct (IH _ (S n) I) as (i & E & F). exists (S i). rewrite E. split; [f_equal; lia|auto].
  - destruct I as [I|I]; [injection I; intros; congruence|]. destruct (IH _ (S n) I) as (i & E & F). exists (S i). rewrite E. split; [f_equal; lia|auto].
Qed.
Lemma find_out : forall ap p n, ~ In p ap -> find_at n (map xy ap) p = None.
Proof.
  induction ap as [|[x y] ap IH]; intros [u v] n N; [reflexivity|]. cbn [map xy px py find_at].
  destruct (Req_EM_T x u) as [->|D]; [destruct (Req_EM_T y v) as [->|D]|].
  - exfalso. apply N. left. auto.
  - apply IH. intros I. apply N. right. auto.
  - apply IH. intros I. apply N. right. auto.
Qed.
Lemma corner_false : forall l v, In v [pA; pB; pC; pD; pE; pG] -> t_inside l v = Ok false.
Proof.
  intros l v I. unfold t_inside. cbn [In] in I. unfold pA, pB, pC, pD, pE, pG, zp in I.
  decompose [or] I; subst; try contradiction; cbn [py]; repeat match goal with |- context [Req_EM_T ?a ?b] => destruct (Req_EM_T a b) as [Q|Q]; [exfalso; apply eq_IZR in Q; discriminate|clear Q] end; reflexivity.
Qed.
Lemma tris_good : Forall (fun '(a, b, c) => orient a b c <> 0 /\ forall q, t_inside q (mean3 a b c) = Ok true) (lower_tris ++ upper_tris).
Proof.
  assert (G : forall a b c (k : Z), orient a b c <> 0 -> py a + py b + py c = 3 * IZR k -> (k = 1 \/ k = 2 \/ k = 4 \/ k = 5)%Z -> orient a b c <> 0 /\ forall q, t_inside q (mean3 a b c) = Ok true).
  { intros a b c k O E K. split; auto. intros q. unfold t_inside. rewrite (PExBase.mean_y a b c a b c (Permutation_refl _)). rewrite E.
    replace (3 * IZR k / 3) with (IZR k) by lra. rewrite Rround8_id by (exists (k * 100000000)%Z; rewrite mult_IZR; lra).
    destruct K as [->|[->|[->| ->]]]; repeat match goal with |- Ok (if Req_EM_T ?a ?b then true else ?c) = _ => destruct (Req_EM_T a b); [reflexivity|] end; exfalso; congruence. }
  unfold lower_tris, upper_tris, pA, pB, pC, pD, pE, pG, zp. cbn [app].
  constructor; [apply (G _ _ _ 1%Z); [unfold orient; cbn; lra|cbn; lra|lia]|]. constructor; [apply (G _ _ _ 2%Z); [unfold orient; cbn; lra|cbn; lra|lia]|].
  constructor; [apply (G _ _ _ 5%Z); [unfold orient; cbn; lra|cbn; lra|lia]|]. constructor; [apply (G _ _ _ 4%Z); [unfold orient; cbn; lra|cbn; lra|lia]|]. constructor.
Qed.
Definition pick (vs : list (R * R)) (t : pt RA * pt RA * pt RA) : list (nat * nat * nat) :=
  let '(a, b, c) := t in match find_at 0 vs a, find_at 0 vs b, find_at 0 vs c with Some i, Some j, Some k => [(i, j, k)] | _, _, _ => [] end.
Lemma pick_in : forall ap a b c, incl [a; b; c] ap -> exists ijk, pick (map xy ap) (a, b, c) = [ijk] /\ numbered ap ijk (a, b, c).
Proof.
  intros ap a b c I. destruct (find_in ap a 0 (I a ltac:(cbn; auto))) as (i & E1 & F1). destruct (find_in ap b 0 (I b ltac:(cbn; auto))) as (j & E2 & F2). destruct (find_in ap c 0 (I c ltac:(cbn; auto))) as (k & E3 & F3).
  exists (i, j, k). unfold pick. rewrite E1, E2, E3. split; [reflexivity|]. cbn. auto.
Qed.
Lemma pick_out : forall ap a b c, ~ In b ap \/ ~ In c ap -> pick (map xy ap) (a, b, c) = [].
Proof.
  intros ap a b c O. unfold pick. destruct (find_at 0 (map xy ap) a); [|reflexivity]. destruct O as [O|O]; [rewrite (find_out ap b 0 O); reflexivity|].
  rewrite (find_out ap c 0 O). destruct (find_at 0 (map xy ap) b); reflexivity.
Qed.
Inductive chosen (vs : list (pt RA)) : list (pt RA * pt RA * pt RA) -> list (pt RA * pt RA * pt RA) -> Prop :=
| ch_nil : chosen vs [] []
| ch_in : forall a b c l m, incl [a; b; c] vs -> chosen vs l m -> chosen vs ((a, b, c) :: l) ((a, b, c) :: m)
| ch_out : forall a b c l m, ~ In b vs \/ ~ In c vs -> chosen vs l m -> chosen vs ((a, b, c) :: l) m.
Lemma lib_chosen : forall vs tris ap segs, chosen vs (lower_tris ++ upper_tris) tris -> Permutation ap vs -> exists ts, t_lib (map xy ap) segs = Some (map xy ap, ts) /\ Forall2 (numbered ap) ts tris.
Proof.
  intros vs tris ap segs C P. unfold t_lib. eexists. split; [reflexivity|]. change (Forall2 (numbered ap) (flat_map (pick (map xy ap)) (lower_tris ++ upper_tris)) tris).
  induction C as [|a b c l m I C IH|a b c l m O C IH]; cbn [flat_map]; [constructor| |].
  - destruct (pick_in ap a b c) as (ijk & E & N); [intros x X; apply (Permutation_in _ (Permutation_sym P)); auto|]. rewrite E. constructor; auto.
  - rewrite pick_out; auto. destruct O as [O|O]; [left|right]; intros X; apply O; apply (Permutation_in _ P); auto.
Qed.
Definition six := [pA; pB; pC; pD; pE; pG].
Lemma six_facts : separated six /\ Forall stored six /\ Forall (lattice 2000) six.
Proof.
  split; [apply (zp_sep [(-2, 3); (-1, 0); (1, 0); (2, 3); (-1, 6); (1, 6)]%Z)|]. split; [repeat (apply Forall_cons; [apply zp_stored|]); constructor|].
  assert (Z : forall x y, (Z.abs x <= 2000)%Z -> (Z.abs y <= 2000)%Z -> lattice 2000 (zp x y)) by (intros x y Hx Hy; exists x, y; auto).
  repeat (apply Forall_cons; [apply Z; lia|]). constructor.
Qed.
Lemma t_mesh : forall vs tris W, polygon_of vs W -> NoDup vs -> incl vs six -> chosen vs (lower_tris ++ upper_tris) tris ->
  forall c, rearranged c W -> exists us, triangle_mesh t_lib (fun _ _ => t_inside) c = Ok us /\ Forall2 tri_at us tris.
Proof.
  intros vs tris W PO ND INC CH c RE. destruct six_facts as (S1 & S2 & S3). rewrite Forall_forall in S2, S3.
  apply (mesh_whole t_lib t_inside c vs tris); auto.
  - apply (polygon_rearranged vs W); auto.
  - apply (separated_incl six); auto.
  - apply Forall_forall. intros x I. auto.
  - apply Forall_forall. intros x I. auto.
  - intros ap segs P. apply (lib_chosen vs); auto.
  - pose proof tris_good as G. clear - CH G. induction CH as [|a b d l m I C IH|a b d l m O C IH]; auto; inversion G; subst; auto.
  - intros q x. unfold t_inside. eauto.
  - intros q v I. apply corner_false. apply INC. auto.
Qed.
Lemma tri_areas : forall us tris, Forall2 tri_at us tris -> total_area us (fold_right Rplus 0 (map (fun '(a, b, c) => Rabs (orient a b c) / 2) tris)).
Proof.
  intros us tris F. exists (map (fun '(a, b, c) => Rabs (orient a b c) / 2) tris). split; auto. induction F as [|t [[a b] c] us tris [_ A] F IH]; constructor; auto.
Qed.
Lemma t_cut : forall vs tris W z, polygon_of vs W -> NoDup vs -> incl vs six -> chosen vs (lower_tris ++ upper_tris) tris ->
  z = fold_right Rplus 0 (map (fun '(a, b, c) => Rabs (orient a b c) / 2) tris) -> cut_up t_lib t_inside W z.
Proof. intros vs tris W z PO ND INC CH -> c RE. destruct (t_mesh vs tris W PO ND INC CH c RE) as (us & E & F). exists us. split; auto. apply tri_areas. auto. Qed.
Definition v_a : level := PStackWhole.lev (0, 1)%Z. Definition v_m : level := PStackWhole.lev (3, 2)%Z. Definition v_t : level := PStackWhole.lev (6, 1)%Z.
Lemma v_walls : closed_by 0 Flat false v_a = [Wall pB pC] /\ closed_by 0 Flat true v_m = [Wall pA pD] /\ closed_by 0 Flat false v_m = [Wall pA pD] /\ closed_by 0 Flat true v_t = [Wall pE pG] /\
  shell 0 v_a v_m = [Wall pC pD; Wall pA pB] /\ shell 0 v_m v_t = [Wall pD pG; Wall pE pA].
Proof.
  assert (DZ : forall n, decimal8 (IZR n)) by (intros n; exists (n * 100000000)%Z; rewrite mult_IZR; lra).
  assert (D0 : decimal8 0) by apply (DZ 0%Z).
  assert (D1 : forall a, decimal8 (fst (PStackWhole.lev a)) /\ decimal8 (snd (PStackWhole.lev a) / 2)).
  { intros [h w]. cbn [PStackWhole.lev fst snd]. split; auto. rewrite mult_IZR. replace (2 * IZR w / 2) with (IZR w) by lra. auto. }
  assert (CO : forall r h w, PStack.corner 0 r (PStackWhole.lev (h, w)) = zp (if r then w else - w) h).
  { intros r h w. unfold PStack.corner, PStackWhole.lev, zp, PStack.sg. cbn [fst snd]. rewrite mult_IZR. f_equal. destruct r; rewrite ?opp_IZR; lra. }
  unfold v_a, v_m, v_t. rewrite !PStack.flat_eq by apply D1 || auto. rewrite !PStack.shell_eq by apply D1 || auto. unfold PStack.side_wall. rewrite !CO. repeat split.
Qed.
Lemma six_nodup : NoDup six.
Proof. unfold six, pA, pB, pC, pD, pE, pG. repeat constructor; cbn [In]; intros I; decompose [or] I; try contradiction; match goal with H : zp _ _ = zp _ _ |- _ => revert H; apply zp_neq; reflexivity end. Qed.
Ltac not_in := let I := fresh in cbn [In]; intros I; decompose [or] I; try contradiction; match goal with H : zp _ _ = zp _ _ |- _ => revert H; apply zp_neq; reflexivity end.
Ltac nodup := repeat (constructor; [unfold pA, pB, pC, pD, pE, pG; not_in|]); constructor.
Ltac among := let x := fresh in let X := fresh in intros x X; cbn [In six] in *; tauto.
Lemma v_below : polygon_of [pB; pC; pD; pA] (below_plate 0 Flat v_a [v_m]) /\ chosen [pB; pC; pD; pA] (lower_tris ++ upper_tris) lower_tris.
Proof.
  destruct v_walls as (W1 & W2 & W3 & W4 & W5 & W6). split.
  - unfold below_plate, standing_parts. cbn [last shells concat]. rewrite W1, W2, W5. cbn [app].
    exists [Wall pB pC; Wall pC pD; Wall pA pD; Wall pA pB]. split; [apply perm_skip, perm_swap|]. cbn. repeat (apply Forall2_cons; [solve [left; auto | right; auto]|]). constructor.
  - unfold lower_tris, upper_tris. cbn [app]. apply ch_in; [among|]. apply ch_in; [among|]. apply ch_out; [left; unfold pA, pB, pC, pD, pE, pG; not_in|]. apply ch_out; [left; unfold pA, pB, pC, pD, pE, pG; not_in|]. constructor.
Qed.
Lemma v_above : polygon_of [pA; pD; pG; pE] (above_plate 0 Flat v_a [v_m] [v_t]) /\ chosen [pA; pD; pG; pE] (lower_tris ++ upper_tris) upper_tris.
Proof.
  destruct v_walls as (W1 & W2 & W3 & W4 & W5 & W6). split.
  - unfold above_plate, standing_parts. cbn [last shells concat]. rewrite W3, W4, W6. cbn [app].
    exists [Wall pA pD; Wall pD pG; Wall pE pG; Wall pE pA]. split; [apply perm_skip, perm_swap|]. cbn. repeat (apply Forall2_cons; [solve [left; auto | right; auto]|]). constructor.
  - unfold lower_tris, upper_tris. cbn [app]. apply ch_out; [left; unfold pA, pB, pC, pD, pE, pG; not_in|]. apply ch_out; [left; unfold pA, pB, pC, pD, pE, pG; not_in|]. apply ch_in; [among|]. apply ch_in; [among|]. constructor.
Qed.
Lemma v_both : polygon_of [pB; pC; pD; pG; pE; pA] (around_both 0 Flat Flat v_a [v_m] [v_t]) /\ chosen [pB; pC; pD; pG; pE; pA] (lower_tris ++ upper_tris) (lower_tris ++ upper_tris).
Proof.
  destruct v_walls as (W1 & W2 & W3 & W4 & W5 & W6). split.
  - unfold around_both, standing_parts. cbn [app last shells concat]. rewrite W1, W4, W5, W6. cbn [app].
    exists [Wall pB pC; Wall pC pD; Wall pD pG; Wall pE pG; Wall pE pA; Wall pA pB]. split.
    { apply perm_skip. etransitivity; [apply perm_swap|]. apply perm_skip. change (Permutation ([Wall pE pG; Wall pA pB] ++ [Wall pD pG; Wall pE pA]) ([Wall pD pG; Wall pE pG; Wall pE pA] ++ [Wall pA pB])).
      etransitivity; [|apply Permutation_cons_append]. cbn [app]. etransitivity; [apply perm_swap|]. apply perm_skip. apply perm_swap. }
    cbn. repeat (apply Forall2_cons; [solve [left; auto | right; auto]|]). constructor.
  - unfold lower_tris, upper_tris. cbn [app]. do 4 (apply ch_in; [among|]). constructor.
Qed.
Lemma tri_pairs_free : forall t abc u def w, tri_at t abc -> tri_at u def -> let '(a, b, c) := abc in let '(d, e, f) := def in
  parted [a; b; c] [d; e; f] -> In w [a; b; c] -> ~ In w [d; e; f] -> incl [a; b; c; d; e; f] six -> congruent t u = false /\ MTri.overlap (fun _ => t_inside) t u = Ok false.
Proof.
  intros t [[a b] c] u [[d e] f] w [G1 _] [G2 _] PA I1 I2 INC. apply (pair_free t_inside t a b c u d e f w); auto.
  - intros l q. unfold t_inside. eauto.
  - intros l q I. apply corner_false, INC, I.
  - destruct six_facts as (_ & S2 & _). rewrite Forall_forall in *. auto.
Qed.
Ltac part u v w := exists u, v, w; cbv zeta; split; [intros p I; cbn [In] in I; decompose [or] I; subst; try contradiction; cbn; lra|split; [intros p I; cbn [In] in I; decompose [or] I; subst; try contradiction; cbn; lra|]].
Lemma p12 : parted [pA; pB; pC] [pA; pC; pD].
Proof. part 1 1 (-1). right. right. exists pA, pC. intros p I Z. cbn [In app] in I. decompose [or] I; subst; try contradiction; auto; exfalso; cbn in Z; lra. Qed.
Lemma p34 : parted [pA; pE; pG] [pA; pG; pD].
Proof. part 1 (-1) 5. right. right. exists pA, pG. intros p I Z. cbn [In app] in I. decompose [or] I; subst; try contradiction; auto; exfalso; cbn in Z; lra. Qed.
Lemma p13 : parted [pA; pB; pC] [pA; pE; pG].
Proof. part 0 1 (-3). left. exists pA. intros p I Z. cbn [In] in I. decompose [or] I; subst; try contradiction; auto; exfalso; cbn in Z; lra. Qed.
Lemma p14 : parted [pA; pB; pC] [pA; pG; pD].
Proof. part 0 1 (-3). left. exists pA. intros p I Z. cbn [In] in I. decompose [or] I; subst; try contradiction; auto; exfalso; cbn in Z; lra. Qed.
Lemma p23 : parted [pA; pC; pD] [pA; pE; pG].
Proof. part 0 1 (-3). right. left. exists pA. intros p I Z. cbn [In] in I. decompose [or] I; subst; try contradiction; auto; exfalso; cbn in Z; lra. Qed.
Lemma p24 : parted [pA; pC; pD] [pA; pG; pD].
Proof. part 0 1 (-3). right. right. exists pA, pD. intros p I Z. cbn [In app] in I. decompose [or] I; subst; try contradiction; auto; exfalso; cbn in Z; lra. Qed.
Lemma all_free : forall t1 t2 t3 t4, Forall2 tri_at [t1; t2] lower_tris -> Forall2 tri_at [t3; t4] upper_tris -> clash_free t_inside [t1; t2; t3; t4] /\ clash_free t_inside [t3; t4; t1; t2].
Proof.
  intros t1 t2 t3 t4 F G. inversion F as [|? ? ? ? T1 F1]; subst. inversion F1 as [|? ? ? ? T2 _]; subst. inversion G as [|? ? ? ? T3 G1]; subst. inversion G1 as [|? ? ? ? T4 _]; subst.
  pose proof (parted_sym _ _ p13) as p31. pose proof (parted_sym _ _ p14) as p41. pose proof (parted_sym _ _ p23) as p32. pose proof (parted_sym _ _ p24) as p42.
  assert (S1 : forall a b c d e f, In a six -> In b six -> In c six -> In d six -> In e six -> In f six -> incl [a; b; c; d; e; f] six).
  { intros a b c d e f H1 H2 H3 H4 H5 H6 z [<-|[<-|[<-|[<-|[<-|[<-|[]]]]]]]; assumption. }
  assert (IA : In pA six) by (left; reflexivity). assert (IB : In pB six) by (right; left; reflexivity). assert (IC : In pC six) by (right; right; left; reflexivity).
  assert (ID : In pD six) by (do 3 right; left; reflexivity). assert (IE : In pE six) by (do 4 right; left; reflexivity). assert (IG : In pG six) by (do 5 right; left; reflexivity).
  assert (N12 : ~ In pB [pA; pC; pD]) by (unfold pA, pB, pC, pD, pE, pG; not_in).
  pose proof (tri_pairs_free t1 _ t2 _ pB T1 T2 p12 (or_intror (or_introl eq_refl)) N12 (S1 _ _ _ _ _ _ IA IB IC IA IC ID)) as X12.
  assert (N34 : ~ In pE [pA; pG; pD]) by (unfold pA, pB, pC, pD, pE, pG; not_in).
  pose proof (tri_pairs_free t3 _ t4 _ pE T3 T4 p34 (or_intror (or_introl eq_refl)) N34 (S1 _ _ _ _ _ _ IA IE IG IA IG ID)) as X34.
  assert (N13 : ~ In pB [pA; pE; pG]) by (unfold pA, pB, pC, pD, pE, pG; not_in).
  pose proof (tri_pairs_free t1 _ t3 _ pB T1 T3 p13 (or_intror (or_introl eq_refl)) N13 (S1 _ _ _ _ _ _ IA IB IC IA IE IG)) as X13.
  assert (N14 : ~ In pB [pA; pG; pD]) by (unfold pA, pB, pC, pD, pE, pG; not_in).
  pose proof (tri_pairs_free t1 _ t4 _ pB T1 T4 p14 (or_intror (or_introl eq_refl)) N14 (S1 _ _ _ _ _ _ IA IB IC IA IG ID)) as X14.
  assert (N23 : ~ In pC [pA; pE; pG]) by (unfold pA, pB, pC, pD, pE, pG; not_in).
  pose proof (tri_pairs_free t2 _ t3 _ pC T2 T3 p23 (or_intror (or_introl eq_refl)) N23 (S1 _ _ _ _ _ _ IA IC ID IA IE IG)) as X23.
  assert (N24 : ~ In pC [pA; pG; pD]) by (unfold pA, pB, pC, pD, pE, pG; not_in).
  pose proof (tri_pairs_free t2 _ t4 _ pC T2 T4 p24 (or_intror (or_introl eq_refl)) N24 (S1 _ _ _ _ _ _ IA IC ID IA IG ID)) as X24.
  assert (N31 : ~ In pE [pA; pB; pC]) by (unfold pA, pB, pC, pD, pE, pG; not_in).
  pose proof (tri_pairs_free t3 _ t1 _ pE T3 T1 p31 (or_intror (or_introl eq_refl)) N31 (S1 _ _ _ _ _ _ IA IE IG IA IB IC)) as X31.
  assert (N41 : ~ In pG [pA; pB; pC]) by (unfold pA, pB, pC, pD, pE, pG; not_in).
  pose proof (tri_pairs_free t4 _ t1 _ pG T4 T1 p41 (or_intror (or_introl eq_refl)) N41 (S1 _ _ _ _ _ _ IA IG ID IA IB IC)) as X41.
  assert (N32 : ~ In pE [pA; pC; pD]) by (unfold pA, pB, pC, pD, pE, pG; not_in).
  pose proof (tri_pairs_free t3 _ t2 _ pE T3 T2 p32 (or_intror (or_introl eq_refl)) N32 (S1 _ _ _ _ _ _ IA IE IG IA IC ID)) as X32.
  assert (N42 : ~ In pG [pA; pC; pD]) by (unfold pA, pB, pC, pD, pE, pG; not_in).
  pose proof (tri_pairs_free t4 _ t2 _ pG T4 T2 p42 (or_intror (or_introl eq_refl)) N42 (S1 _ _ _ _ _ _ IA IG ID IA IC ID)) as X42.
  split; [exact (FOP_cons _ (Forall_cons _ X12 (Forall_cons _ X13 (Forall_cons _ X14 (Forall_nil _)))) (FOP_cons _ (Forall_cons _ X23 (Forall_cons _ X24 (Forall_nil _))) (FOP_cons _ (Forall_cons _ X34 (Forall_nil _)) (FOP_cons _ (Forall_nil _) (FOP_nil _)))))|exact (FOP_cons _ (Forall_cons _ X34 (Forall_cons _ X31 (Forall_cons _ X32 (Forall_nil _)))) (FOP_cons _ (Forall_cons _ X41 (Forall_cons _ X42 (Forall_nil _))) (FOP_cons _ (Forall_cons _ X12 (Forall_nil _)) (FOP_cons _ (Forall_nil _) (FOP_nil _)))))].
Qed.
Lemma v_clash : no_clash t_lib t_inside (below_plate 0 Flat v_a [v_m]) (above_plate 0 Flat v_a [v_m] [v_t]) /\
  no_clash t_lib t_inside (above_plate 0 Flat v_a [v_m] [v_t]) (below_plate 0 Flat v_a [v_m]).
Proof.
  destruct v_below as [B1 B2]. destruct v_above as [A1 A2].
  assert (N1 : NoDup [pB; pC; pD; pA]) by nodup. assert (N2 : NoDup [pA; pD; pG; pE]) by nodup.
  assert (I1 : incl [pB; pC; pD; pA] six) by among. assert (I2 : incl [pA; pD; pG; pE] six) by among.
  assert (K : forall c d ts us, rearranged c (below_plate 0 Flat v_a [v_m]) -> rearranged d (above_plate 0 Flat v_a [v_m] [v_t]) ->
    triangle_mesh t_lib (fun _ _ => t_inside) c = Ok ts -> triangle_mesh t_lib (fun _ _ => t_inside) d = Ok us -> clash_free t_inside (ts ++ us) /\ clash_free t_inside (us ++ ts)).
  { intros c d ts us C D E1 E2. destruct (t_mesh _ _ _ B1 N1 I1 B2 c C) as (ts' & E1' & F1). destruct (t_mesh _ _ _ A1 N2 I2 A2 d D) as (us' & E2' & F2).
    assert (ts' = ts) as -> by congruence. assert (us' = us) as -> by congruence.
    pose proof (Forall2_len _ _ _ _ _ F1) as L1. pose proof (Forall2_len _ _ _ _ _ F2) as L2.
    destruct ts as [|t1 [|t2 [|? ?]]]; try discriminate L1. destruct us as [|t3 [|t4 [|? ?]]]; try discriminate L2. apply all_free; auto. }
  split; intros c d ts us C D E1 E2; [destruct (K c d ts us C D E1 E2)|destruct (K d c us ts D C E2 E1)]; auto.
Qed.
(*@ex C100_example *)
(** C100: a vessel of two cones, 2 m wide at 0 m and at 6 m and 4 m wide at 3 m, where there is a plate; its
    rooms are cut into two triangles each.  All the hypotheses hold, and it gets its two rooms. *)
Example two_rooms_example : exists ps (sch : sched RA),
  measured 0 (v_a :: [v_m] ++ [v_t]) /\ rising v_a ([v_m] ++ [v_t]) /\ Permutation ps (plated_parts 0 Flat Flat v_a [v_m] [v_t]) /\
  walk_segments sch 20 (concat ps) None = Ok NoLoop /\ lists_all (PExBase.d_hash (list nat)) /\
  cut_up t_lib t_inside (below_plate 0 Flat v_a [v_m]) 9 /\ cut_up t_lib t_inside (above_plate 0 Flat v_a [v_m] [v_t]) 9 /\
  cut_up t_lib t_inside (around_both 0 Flat Flat v_a [v_m] [v_t]) (9 + 9) /\
  no_clash t_lib t_inside (below_plate 0 Flat v_a [v_m]) (above_plate 0 Flat v_a [v_m] [v_t]) /\
  no_clash t_lib t_inside (above_plate 0 Flat v_a [v_m] [v_t]) (below_plate 0 Flat v_a [v_m]) /\ right_for_convex PExContain.x_inside /\
  exists w1 w2, vessel_rooms (fun _ => sch) 20 5 (PExBase.d_hash nat) (PExBase.d_hash (list nat)) t_lib t_inside PExContain.x_inside (fun _ => PExBase.d_hash (list (seg RA))) (blocks 0 ps) (concat ps) =
    Ok (Some [mkraum "R1" 0 [] [w1] []; mkraum "R2" 1 [] [w2] []]).
Proof.
  destruct (PPlateWhole.plate_whole_example PMake.quadrant_libm) as (ZF & ZR & E1 & E2 & fs & PF & FA' & NL).
  destruct (Permutation_Forall2 (Permutation_sym PF) (PPlateWhole.zplated_rel _ _ _ _ _ _ _ ZF E1 E2)) as (ps & PR & FR).
  destruct (PPlateWhole.zs_exact _ _ _ (PPlateWhole.concat_rel _ _ _ _ _ FR)) as [EX WH].
  destruct (PPlateWhole.walk_exact _ _ _ _ _ FA' EX WH NL) as (sch & _ & EW). rewrite PPlateWhole.zplated_real in PR. cbn [map] in PR.
  pose proof (PPlateWhole.lev_measured _ _ ZF) as M. pose proof (PPlateWhole.lev_rising _ _ ZR) as RI. cbn [map app] in M, RI.
  change (IZR 0) with 0 in *. fold v_a v_m v_t in M, RI, PR.
  destruct v_below as [B1 B2]. destruct v_above as [A1 A2]. destruct v_both as [O1 O2]. destruct v_clash as [C1 C2].
  assert (AR : Rabs (orient pA pB pC) / 2 = 3 /\ Rabs (orient pA pC pD) / 2 = 6 /\ Rabs (orient pA pE pG) / 2 = 3 /\ Rabs (orient pA pG pD) / 2 = 6).
  { assert (K : forall x y, x = 2 * y \/ x = - (2 * y) -> 0 <= y -> Rabs x / 2 = y) by (intros x y [-> | ->] P; [rewrite Rabs_right by lra|rewrite Rabs_left1 by lra]; lra).
    repeat split; (apply K; [unfold orient, pA, pB, pC, pD, pE, pG, zp; cbn [px py]; first [left; lra|right; lra]|lra]). }
  destruct AR as (R1 & R2 & R3 & R4).
  assert (Cb : cut_up t_lib t_inside (below_plate 0 Flat v_a [v_m]) 9).
  { apply (t_cut _ lower_tris _ _ B1); [nodup|among|exact B2|]. change (9 = Rabs (orient pA pB pC) / 2 + (Rabs (orient pA pC pD) / 2 + 0)). rewrite R1, R2. lra. }
  assert (Ca : cut_up t_lib t_inside (above_plate 0 Flat v_a [v_m] [v_t]) 9).
  { apply (t_cut _ upper_tris _ _ A1); [nodup|among|exact A2|]. change (9 = Rabs (orient pA pE pG) / 2 + (Rabs (orient pA pG pD) / 2 + 0)). rewrite R3, R4. lra. }
  assert (Co : cut_up t_lib t_inside (around_both 0 Flat Flat v_a [v_m] [v_t]) (9 + 9)).
  { apply (t_cut _ (lower_tris ++ upper_tris) _ _ O1); [nodup|among|exact O2|]. change (9 + 9 = Rabs (orient pA pB pC) / 2 + (Rabs (orient pA pC pD) / 2 + (Rabs (orient pA pE pG) / 2 + (Rabs (orient pA pG pD) / 2 + 0)))). rewrite R1, R2, R3, R4. lra. }
  assert (LA : lists_all (PExBase.d_hash (list nat))).
  { intros k l. cbn. destruct (Nat.even k); [auto|]. apply Permutation_sym, Permutation_rev. }
  exists ps, sch. split; [exact M|]. split; [exact RI|]. split; [symmetry; exact PR|]. split; [exact EW|]. split; [exact LA|].
  split; [exact Cb|]. split; [exact Ca|]. split; [exact Co|]. split; [exact C1|]. split; [exact C2|]. split; [exact PExContain.x_right|].
  destruct (PPlateRooms.plate_rooms (fun _ => sch) 20 5 (PExBase.d_hash nat) (PExBase.d_hash (list nat)) t_lib t_inside PExContain.x_inside (fun _ => PExBase.d_hash (list (seg RA)))
    0 Flat Flat v_a [v_m] [v_t] ps 9 9) as (w1 & w2 & E & _); auto; try discriminate; try lra; [cbn; lia|symmetry; exact PR|exact PExContain.x_right|].
  exists w1, w2. exact E.
Qed.
