(** A triangle in the corner of another: reported disjunct. *)
From Coq Require Import Reals ZArith Lra Lia Bool List Psatz Permutation.
From Verif Require Import Base Arith ArithR ArithF MPoint MLine MPoly MTri Spec SpecInside SpecTri
  PPoint PShape PCommon PInside PExamples POrder PMore PCorner PCollinear PEar PEar2 PArea PRel.
Import ListNotations.
Local Open Scope R_scope.
#[local] Existing Instance RA.

Definition tri3 (a b c : pt RA) : list (seg RA) := [LineSegment a b; LineSegment b c; LineSegment c a].
Lemma tri3_grid : forall a b c a' b' c' : Z,
  (Z.abs a <= 2000 /\ Z.abs a' <= 2000 /\ Z.abs b <= 2000 /\ Z.abs b' <= 2000 /\ Z.abs c <= 2000 /\ Z.abs c' <= 2000)%Z ->
  orient (zp a a') (zp b b') (zp c c') <> 0 -> grid_triangle (tri3 (zp a a') (zp b b') (zp c c')) (zp a a') (zp b b') (zp c c').
Proof.
  intros a b c a' b' c' H O. split; [|split; [|split]]; auto.
  - eexists. split; [apply Permutation_refl|]. cbn. repeat (apply Forall2_cons; [left; auto|]). constructor.
  - repeat constructor.
  - repeat (apply Forall_cons; [eexists; eexists; split; [reflexivity|split; [reflexivity|lia]]|]). constructor.
Qed.

(*@ C71_nested_refuted *)
(** C71 (finding): the triangle (1,1), (5,1), (1,5) lies in the triangle (1,1), (9,1), (1,9) and the two
    share parts of two sides; if the corners of the one, which are on the boundary or outside of the other, are reported not inside, the
    triangles are reported disjunct (and not touching). *)
Lemma nested_disjunct :
  let s := tri3 (zp 1 1) (zp 9 1) (zp 1 9) in let t := tri3 (zp 1 1) (zp 5 1) (zp 1 5) in
  grid_triangle s (zp 1 1) (zp 9 1) (zp 1 9) /\ grid_triangle t (zp 1 1) (zp 5 1) (zp 1 5) /\
  on_segment (zp 1 1) (zp 9 1) (zp 5 1) /\ on_segment (zp 1 9) (zp 1 1) (zp 1 5) /\
  tri_touch s t = Ok false /\
  forall io1 io2 io3,
    (forall n q, In q [zp 1 1; zp 5 1; zp 1 5] -> io1 n s q = Ok false /\ io2 n s q = Ok false /\ io3 n s q = Ok false) ->
    (forall n q, In q [zp 1 1; zp 9 1; zp 1 9] -> io1 n t q = Ok false /\ io2 n t q = Ok false /\ io3 n t q = Ok false) ->
    tri_disjunct io1 io2 io3 s t = Ok true.
Proof.
  intros s t.
  assert (GS : grid_triangle s (zp 1 1) (zp 9 1) (zp 1 9)) by (apply tri3_grid; [lia|unfold orient, zp; cbn [px py]; lra]).
  assert (GT : grid_triangle t (zp 1 1) (zp 5 1) (zp 1 5)) by (apply tri3_grid; [lia|unfold orient, zp; cbn [px py]; lra]).
  assert (AP : on_segment (zp 1 1) (zp 9 1) (zp 5 1)) by (exists (1/2); split; [lra|unfold along, zp; cbn [px py]; f_equal; cbn; lra]).
  assert (AQ : on_segment (zp 1 9) (zp 1 1) (zp 1 5)) by (exists (1/2); split; [lra|unfold along, zp; cbn [px py]; f_equal; cbn; lra]).
  assert (D1 : share_length (LineSegment (zp 1 1) (zp 9 1)) (LineSegment (zp 1 1) (zp 5 1))).
  { exists (zp 1 1), (zp 5 1). split; [apply zp_neq; reflexivity|]. split; split; try apply on_ends; exact AP. }
  assert (D2 : share_length (LineSegment (zp 1 9) (zp 1 1)) (LineSegment (zp 1 5) (zp 1 1))).
  { exists (zp 1 1), (zp 1 5). split; [apply zp_neq; reflexivity|]. split; split; try apply on_ends; exact AQ. }
  assert (NS : ~ share_once s t).
  { intros (x & y & _ & _ & _ & U).
    destruct (U (LineSegment (zp 1 1) (zp 9 1)) (LineSegment (zp 1 1) (zp 5 1))) as [E1 _]; [cbn; auto|cbn; auto|auto|].
    destruct (U (LineSegment (zp 1 9) (zp 1 1)) (LineSegment (zp 1 5) (zp 1 1))) as [E2 _]; [cbn; auto|cbn; auto|auto|].
    assert (K : zp 1 1 = zp 1 9) by (rewrite <- E2 in E1; exact (f_equal si E1)). revert K. apply zp_neq. reflexivity. }
  repeat (split; [assumption|]). split.
  - destruct (touch_spec _ _ _ _ _ _ _ _ GS GT) as (r & -> & R). f_equal. destruct r; auto. exfalso. apply NS, R. auto.
  - intros io1 io2 io3 H1 H2. apply (disjunct_spec io1 io2 io3 _ _ _ _ _ _ _ _ GS GT); auto.
    + intros P. assert (In (zp 9 1) [zp 1 1; zp 5 1; zp 1 5]) as K by (apply (Permutation_in _ P); cbn; auto).
      cbn in K. decompose [or] K; try contradiction; (eapply zp_neq; [|eassumption]; reflexivity).
    + intros (x & y & q & I & J & M & F).
      assert (Q : shared x y q) by (apply M; auto).
      assert (NQ : forall v, In v [zp 1 1; zp 9 1; zp 1 9; zp 1 1; zp 5 1; zp 1 5] -> q <> v).
      { intros v V ->. specialize (F v V). cbn in V.
        assert (E : Rround8 (px v) = px v /\ Rround8 (py v) = py v).
        { decompose [or] V; subst; try contradiction; cbn [px py zp]; split; apply Rround8_id;
          match goal with |- on_grid (IZR ?k) => exists (k * 100000000)%Z; rewrite mult_IZR; lra end. }
        destruct E as [EX EY]. rewrite EX, EY in F. replace (px v - px v) with 0 in F by lra. replace (py v - py v) with 0 in F by lra. rewrite Rabs_R0 in F. lra. }
      assert (C : forall v, In v [zp 1 1; zp 9 1; zp 1 9; zp 1 1; zp 5 1; zp 1 5] -> shared x y v -> False).
      { intros v V K. apply M in K. apply (NQ v V). auto. }
      destruct Q as [(l & L & E) (m & Mm & E')].
      cbn in I, J. destruct I as [<-|[<-|[<-|[]]]]; destruct J as [<-|[<-|[<-|[]]]]; cbn [si sj LineSegment] in *; unfold along, zp in E, E'; cbn [px py] in E, E';
      rewrite E in E'; injection E' as EX EY.
      * apply (C (zp 1 1)); [cbn; auto|]. split; apply on_ends.
      * apply (NQ (zp 5 1)); [cbn; auto 10|]. rewrite E. unfold zp. f_equal; cbn; lra.
      * apply (NQ (zp 1 1)); [cbn; auto 10|]. rewrite E. unfold zp. f_equal; cbn; lra.
      * lra.
      * lra.
      * lra.
      * apply (NQ (zp 1 1)); [cbn; auto 10|]. rewrite E. unfold zp. f_equal; cbn; lra.
      * apply (NQ (zp 1 5)); [cbn; auto 10|]. rewrite E. unfold zp. f_equal; cbn; lra.
      * apply (C (zp 1 1)); [cbn; auto|]. split; apply on_ends.
Qed.

(*@ C71_nested_inside_refuted *)
(** C71 (finding), binary64: the program's own test reports those corners not inside (with these draws). *)
Lemma nested_inside : forall L : Libm,
  let draws := fun k : nat => (@ndiv (FA L) (nofZ 3) (nofZ 10), @ndiv (FA L) (nofZ (2 + Z.of_nat k)) (nofZ 10)) in
  let tri := fun zs => map (fun e : pt (FA L) * pt (FA L) => LineSegment (fst e) (snd e)) (cycle_edges (zpts (FA L) zs)) in
  map (fun p => poly_is_internal_point (tri [(1, 1); (9, 1); (1, 9)]%Z) p draws 5) (zpts (FA L) [(1, 1); (5, 1); (1, 5)]%Z) = [Ok (Some false); Ok (Some false); Ok (Some false)] /\
  map (fun p => poly_is_internal_point (tri [(1, 1); (5, 1); (1, 5)]%Z) p draws 5) (zpts (FA L) [(1, 1); (9, 1); (1, 9)]%Z) = [Ok (Some false); Ok (Some false); Ok (Some false)].
Proof. intros L draws tri. split; vm_compute; reflexivity. Qed.
