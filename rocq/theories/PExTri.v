(** Concrete cases for collinear corners, ear clipping and the area. *)
From Coq Require Import Reals ZArith Lra Lia Bool List Psatz Permutation.
From Verif Require Import Base Arith ArithR ArithF MPoint MLine MPoly MTri Spec SpecInside SpecGroup SpecTri
  PPoint PShape PCommon PInside PExamples POrder PMore PCorner PCollinear PEar PEar2 PArea.
Import ListNotations.
Local Open Scope R_scope.
#[local] Existing Instance RA.

(** A library that triangulates triangles, answers that say yes for means and no for corners. *)
Definition t_lib : mesh_lib RA := fun vs segs => if Nat.ltb (length segs) 3 then None else Some (vs, [(0, 1, 2)%nat]).
Definition t_in (k n : nat) (l : list (seg RA)) (p : pt RA) : res bool := Ok (Nat.eqb n 0).
Definition t_vs := [zp 0 0; zp 4 0; zp 4 3].
Definition t_segs := [LineSegment (zp 0 0) (zp 4 0); LineSegment (zp 4 0) (zp 4 3); LineSegment (zp 4 3) (zp 0 0)].

Lemma t_hyps : polygon_of t_vs t_segs /\ NoDup t_vs /\ separated t_vs /\ Forall stored t_vs.
Proof.
  split; [|split; [|split]].
  - exists t_segs. split; auto. cbn. repeat (apply Forall2_cons; [left; auto|]). constructor.
  - unfold t_vs. repeat constructor; cbn; intros H; decompose [or] H; try contradiction; eapply zp_neq; try eassumption; reflexivity.
  - apply (zp_sep [(0, 0); (4, 0); (4, 3)]%Z).
  - repeat (apply Forall_cons; [apply zp_stored|]). constructor.
Qed.
Lemma t_lib_ok : forall ap segs, Permutation ap t_vs -> asked ap t_segs segs ->
  exists ts tris cs tris' x y, t_lib (map xy ap) segs = Some (map xy ap, ts) /\ Forall2 (numbered ap) ts tris /\
    Permutation tris tris' /\ Forall2 same_corners tris' cs /\ clipped (fun _ a p b => 0 < orient a p b) t_vs cs [x; y].
Proof.
  intros ap segs P AS. pose proof (Permutation_length P) as L. destruct ap as [|a [|b [|c [|? ?]]]]; try discriminate L.
  assert (LS : length segs = 3%nat).
  { inversion AS as [|? ? ? ? _ A1]; subst. inversion A1 as [|? ? ? ? _ A2]; subst. inversion A2 as [|? ? ? ? _ A3]; subst. inversion A3; subst. reflexivity. }
  exists [(0, 1, 2)%nat], [(a, b, c)], [(zp 0 0, zp 4 0, zp 4 3)], [(a, b, c)], (zp 0 0), (zp 4 3).
  split; [unfold t_lib; rewrite LS; reflexivity|]. split; [repeat constructor|]. split; auto. split; [repeat constructor; exact P|].
  eapply clip_corner; [exists [], t_vs; split; reflexivity| |constructor].
  unfold orient, zp. cbn [px py]. lra.
Qed.

(*@ex C70_area_example *)
Example area_example : polygon_of t_vs t_segs /\ NoDup t_vs /\ separated t_vs /\ Forall stored t_vs /\
  area t_lib t_in t_in t_segs = Ok 6.
Proof.
  destruct t_hyps as (H1 & H2 & H3 & H4). repeat (split; [assumption|]).
  rewrite (area_triangulated t_lib t_in t_in t_vs t_segs H1 H2 H3 H4 t_lib_ok).
  - f_equal. replace (shoelace t_vs / 2) with 6 by (unfold shoelace, t_vs, zp; cbn; lra).
    apply Rround8_id. exists 600000000%Z. lra.
  - intros. exists (Nat.eqb n 0), (Nat.eqb n 0). auto.
  - discriminate.
  - discriminate.
Qed.

(*@ C70_stale_refuted *)
(** C70 (finding): the area does not follow changes of the polygon.  A polygon of two segments has area 0;
    asked after it has been closed to a triangle of area 6, the same polygon still answers 0. *)
Lemma area_stale :
  let p := mka [LineSegment (zp 0 0) (zp 4 0); LineSegment (zp 4 0) (zp 4 3)] None in
  let q := fold_left act_do [AskArea t_lib t_in t_in; Close] p in
  fst (area_get t_lib t_in t_in p) = Ok 0 /\ a_segs q = t_segs /\ area t_lib t_in t_in (a_segs q) = Ok 6 /\
  fst (area_get t_lib t_in t_in q) = Ok 0.
Proof.
  intros p q.
  assert (E0 : area t_lib t_in t_in (a_segs p) = Ok 0).
  { destruct (asked_any (a_segs p)) as (segs & ES & AS). unfold area, detailled_area, triangle_mesh. rewrite ES. cbn [bind].
    assert (LS : length segs = 2%nat) by (apply Forall2_len in AS; auto).
    unfold t_lib. rewrite LS. cbn [Nat.ltb Nat.leb bind mapM]. rewrite nsum_R. cbn [fold_right]. f_equal. apply Rround8_id. exists 0%Z. lra. }
  assert (E1 : area_get t_lib t_in t_in p = (Ok 0, mka (a_segs p) (Some 0))).
  { unfold area_get. cbn [a_cache p]. rewrite E0. reflexivity. }
  assert (EC : MPoly.close (a_segs p) = Ok t_segs).
  { destruct (close_spec (LineSegment (zp 0 0) (zp 4 0)) [LineSegment (zp 4 0) (zp 4 3)]) as (C1 & _ & _ & C2 & _). cbn [last] in *. apply C2.
    rewrite C1. cbn [si sj LineSegment]. rewrite <- !zp_eqb. cbn [Z.eqb andb]. rewrite andb_false_r. reflexivity. }
  assert (EQ : q = mka t_segs (Some 0)).
  { unfold q. cbn [fold_left act_do]. rewrite E1. cbn [snd]. unfold a_close. cbn [a_segs a_cache]. rewrite EC. reflexivity. }
  split; [rewrite E1; reflexivity|]. rewrite EQ. cbn [a_segs]. split; [reflexivity|]. split; [apply area_example|reflexivity].
Qed.

(** A rectangle with a corner in the middle of its lower side. *)
Definition m_zs := [(0, 0); (1, 0); (2, 0); (2, 2); (0, 2)]%Z.
Definition m_vs := map (fun c => zp (fst c) (snd c)) m_zs.
Definition m_segs := map (fun e : pt RA * pt RA => LineSegment (fst e) (snd e)) (cycle_edges m_vs).

(*@ex C68_example *)
Example collinear_example : directed_cycle m_vs m_segs /\ polygon_of m_vs m_segs /\ (3 <= length m_vs < 250)%nat /\ NoDup m_vs /\
  separated m_vs /\ Forall integral m_vs /\ shoelace m_vs = 8 /\ INR (length m_vs) / 10^8 <= Rabs (shoelace m_vs) /\
  consecutive m_vs (zp 0 0) (zp 1 0) (zp 2 0) /\ flat (zp 0 0) (zp 1 0) (zp 2 0).
Proof.
  assert (SH : shoelace m_vs = 8) by (unfold shoelace; cbn; lra).
  split; [exists m_segs; split; [auto|reflexivity]|].
  split; [exists m_segs; split; auto; cbn; repeat (apply Forall2_cons; [left; auto|]); constructor|].
  split; [cbn; lia|].
  split; [repeat constructor; cbn; intros H; decompose [or] H; try contradiction; eapply zp_neq; try eassumption; reflexivity|].
  split; [apply zp_sep|].
  split; [cbn; repeat (apply Forall_cons; [eexists; eexists; split; reflexivity|]); constructor|].
  split; [exact SH|]. split; [rewrite SH, Rabs_right by lra; cbn [length m_vs m_zs map INR]; lra|].
  split; [split; cbn; auto|]. unfold flat, orient, zp. cbn [px py]. replace (_ - _) with 0 by ring. rewrite Rabs_R0. apply Rinv_0_lt_compat. lra.
Qed.

(** Ear clipping in binary64: lists as they are, the first choice, yes for means and no for corners. *)
Definition m_oracle (A : Arith) : ear_oracle A := mkeo (fun _ l => l) (fun _ => 0%nat) (fun _ n _ _ => Ok (Nat.eqb n 0)).
(*@ex C69_example *)
Example ear_example : forall L : Libm,
  let l := map (fun e : pt (FA L) * pt (FA L) => LineSegment (fst e) (snd e)) (cycle_edges (zpts (FA L) m_zs)) in
  (exists ts, ear_clipping (m_oracle (FA L)) l = Ok (true, ts) /\ length ts = 3%nat) /\
  (exists c, collinear_points l = Ok c /\ length (c_mids c) = 1%nat /\ length (c_sides c) = 2%nat).
Proof.
  intros L l. split.
  - assert (match ear_clipping (m_oracle (FA L)) l with Ok (true, ts) => Nat.eqb (length ts) 3 | _ => false end = true) as H by (vm_compute; reflexivity).
    destruct (ear_clipping _ _) as [[[] ts]|]; try discriminate. apply Nat.eqb_eq in H. eauto.
  - assert (match collinear_points l with Ok c => Nat.eqb (length (c_mids c)) 1 && Nat.eqb (length (c_sides c)) 2 | _ => false end = true) as H by (vm_compute; reflexivity).
    destruct (collinear_points l) as [c|]; try discriminate. apply andb_prop in H as [H1 H2]. apply Nat.eqb_eq in H1. apply Nat.eqb_eq in H2. eauto.
Qed.
