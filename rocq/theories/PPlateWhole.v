(** A vessel with a dividing plate and whole sizes in binary64. *)
From Coq Require Import ZArith Reals Lra Lia Bool List Permutation Arith Floats.SpecFloat.
From Verif Require Import Base Arith ArithR ArithF MPoint MLine MPoly MVessel MGroup Spec SpecGroup SpecLoops SpecRing SpecHeap SpecDouble SpecWhole SpecStack SpecStackWhole
  SpecPlate SpecPlateWhole PPoint PWhole.
From Verif Require PStack PStackWhole PPlate PWholeLoops PLoops PBase PWalk.
Import ListNotations.
Local Open Scope R_scope.
#[local] Existing Instance RA.

Lemma concat_rel : forall X Y (R2 : X -> Y -> Prop) ps rs, Forall2 (Forall2 R2) ps rs -> Forall2 R2 (concat ps) (concat rs).
Proof. intros X Y R2 ps rs F. induction F; simpl; [constructor|]. apply Forall2_app; auto. Qed.
Lemma zs_exact : forall L g g', Forall2 (PStackWhole.zs L) g g' -> exact_segs g g' /\ Forall whole_seg g'.
Proof. intros L g g' F. unfold exact_segs. induction F as [|s t ? ? [K1 K2] ? [I1 I2]]; split; constructor; auto. Qed.
Lemma last_lev : forall l a, last (map PStackWhole.lev l) (PStackWhole.lev a) = PStackWhole.lev (last l a).
Proof. induction l as [|b l IH]; intros a; auto. cbn [map]. rewrite !PStack.last_cons. apply IH. Qed.
Lemma zplated_rel : forall L x0 bot top a l1 l2, zfits x0 (a :: l1 ++ l2) -> zend bot false a -> zend top true (last (l1 ++ l2) a) ->
  Forall2 (Forall2 (PStackWhole.zs L)) (zplated (FA L) x0 bot top a l1 l2) (zplated RA x0 bot top a l1 l2).
Proof.
  intros L x0 bot top a l1 l2 H E1 E2. constructor; [|apply PStackWhole.zparts_rel; auto].
  apply PStackWhole.zclosed_rel; [|exact I]. intros u [<-|[]]. apply H. pose proof (PStack.last_in _ l1 a) as K. cbn [In] in *. rewrite in_app_iff. tauto.
Qed.
Lemma zplated_real : forall x0 bot top a l1 l2, zplated RA x0 bot top a l1 l2 = plated_parts (IZR x0) bot top (PStackWhole.lev a) (map PStackWhole.lev l1) (map PStackWhole.lev l2).
Proof. intros. unfold zplated, plated_parts. rewrite PStackWhole.zparts_real, map_app, last_lev. reflexivity. Qed.
Lemma zloops_real : forall x0 bot top a l1 l2, let b := PStackWhole.lev a in let m1 := map PStackWhole.lev l1 in let m2 := map PStackWhole.lev l2 in
  zloops RA x0 bot top a l1 l2 = [below_plate (IZR x0) bot b m1; above_plate (IZR x0) top b m1 m2; around_both (IZR x0) bot top b m1 m2].
Proof. intros. unfold zloops, below_plate, above_plate, around_both, b, m1, m2. rewrite !PStackWhole.zparts_real, map_app, last_lev. reflexivity. Qed.
Lemma lev_measured : forall x0 l, zfits x0 l -> measured (IZR x0) (map PStackWhole.lev l).
Proof.
  intros x0 l ZF. assert (DZ : forall n, decimal8 (IZR n)) by (intros n; exists (n * 100000000)%Z; rewrite mult_IZR; lra). split; auto.
  intros u U. apply in_map_iff in U as (b & <- & B). destruct (ZF b B) as (F1 & F2 & F3). unfold PStackWhole.lev. cbn [fst snd]. split; auto. rewrite mult_IZR. split.
  - replace (2 * IZR (snd b) / 2) with (IZR (snd b)) by lra. auto.
  - apply IZR_le in F2. lra.
Qed.
Lemma lev_rising : forall l a, zrising a l -> rising (PStackWhole.lev a) (map PStackWhole.lev l).
Proof.
  induction l as [|b l IH]; intros a ZR; simpl; auto. destruct ZR as [Z1 Z2]. split; auto. assert (fst a + 1 <= fst b)%Z as K by lia. apply IZR_le in K. rewrite plus_IZR in K. lra.
Qed.
(** When the running walk_segments finds no loop, so does the exact one for some order of the sets. *)
Lemma walk_exact : forall L (sch : sched (FA L)) wf g (g' : list (seg RA)), SpecGroup.fair sch -> exact_segs g g' -> Forall whole_seg g' -> walk_segments sch wf g None = Ok NoLoop ->
  exists s : sched RA, SpecGroup.fair s /\ walk_segments s wf g' None = Ok NoLoop.
Proof.
  intros L sch wf g g' F E W NL. destruct (PWholeLoops.segments_wh L sch wf g g' None None F (wpoly_intro L g g' E W) I) as (s & FS & Q). rewrite NL in Q. exists s. split; auto.
  destruct (walk_segments s wf g' None) as [[| |?]|?]; try contradiction; reflexivity.
Qed.

(*@ C99_whole *)
(** C99 in binary64: for a vessel with whole sizes (as in C98_whole) and a plate, its parts in any order, when
    the running walk_segments finds no loop first, find_loops reports the walls of both rooms and of the
    outline, with exact coordinates, and nothing else. *)
Lemma plate_whole : forall L (schs : nat -> sched (FA L)) wf fuel x0 bot top a l1 l2 (ps : list (list (seg (FA L)))),
  zfits x0 (a :: l1 ++ l2) -> zrising a (l1 ++ l2) -> zend bot false a -> zend top true (last (l1 ++ l2) a) -> l1 <> [] -> l2 <> [] -> (length (l1 ++ l2) <= 60)%nat ->
  Permutation ps (zplated (FA L) x0 bot top a l1 l2) -> (forall k, SpecGroup.fair (schs k)) -> walk_segments (schs fuel) wf (concat ps) None = Ok NoLoop ->
  exists cs h, find_loops schs wf fuel (concat ps) = Ok (Some (cs, h)) /\
    (forall W, In W (zloops RA x0 bot top a l1 l2) -> exists c v, In c cs /\ exact_segs (MGroup.value h c) v /\ rearranged v W) /\
    (forall c, In c cs -> exists W v, In W (zloops RA x0 bot top a l1 l2) /\ exact_segs (MGroup.value h c) v /\ rearranged v W).
Proof.
  intros L schs wf fuel x0 bot top a l1 l2 ps ZF ZR E1 E2 N1 N2 LL PS FS NL.
  destruct (Permutation_Forall2 (Permutation_sym PS) (zplated_rel L x0 bot top a l1 l2 ZF E1 E2)) as (rs & PR & FR).
  destruct (zs_exact L _ _ (concat_rel _ _ _ _ _ FR)) as [EX WH]. rewrite zplated_real in PR. rewrite zloops_real.
  pose proof (lev_measured _ _ ZF) as M. pose proof (lev_rising _ _ ZR) as RI. cbn [map] in M. rewrite map_app in M, RI.
  set (b := PStackWhole.lev a) in *. set (m1 := map PStackWhole.lev l1) in *. set (m2 := map PStackWhole.lev l2) in *. set (y0 := IZR x0) in *.
  assert (M1 : m1 <> []) by (unfold m1; destruct l1; [congruence|discriminate]). assert (M2 : m2 <> []) by (unfold m2; destruct l2; [congruence|discriminate]).
  assert (LM : (length (m1 ++ m2) <= 60)%nat) by (unfold m1, m2; rewrite <- map_app, map_length; exact LL).
  assert (PG : Permutation (concat rs) (concat (plated_parts y0 bot top b m1 m2))) by (apply PStack.concat_perm; symmetry; exact PR).
  destruct (PPlate.plate_split y0 bot top b m1 m2 M RI M1 M2 LM) as (s & p & r & _ & _ & _ & P4 & R1 & R2 & R3 & _ & _ & _ & LE).
  assert (PG' : Permutation (concat rs) (s :: p ++ r)) by (rewrite PG; exact P4).
  assert (SG : simple_graph (concat rs)) by (apply (PPlate.across_simple s p r); auto; lia).
  assert (BIG : (length (concat ps) < 250)%nat).
  { assert (LN : length (concat ps) = length (concat rs)) by (clear - EX; unfold exact_segs in EX; induction EX; simpl; auto). rewrite LN, (Permutation_length PG'). simpl. rewrite app_length. lia. }
  destruct (PPlate.plate_loops y0 bot top b m1 m2 (concat rs) M RI M1 M2 LM PG) as [LO1 LO2].
  destruct (PWholeLoops.no_loop_missed_whole L schs wf fuel (concat ps) (concat rs) FS EX WH SG BIG NL) as (cs & h & E & F1 & F2). exists cs, h. split; auto. split.
  - intros W IW. destruct (LO2 W IW) as (w & Lw & U & RR). destruct (F1 w Lw U) as (c & v & Ic & Ec & Rc). exists c, v. split; auto. split; auto. eapply PBase.rearranged_trans; eauto.
  - intros c Ic. destruct (F2 c Ic) as (l & v & Ll & _ & Ev & Rc). destruct (LO1 l Ll) as [H|[H|H]]; eexists; exists v; (split; [|split; [exact Ev|eapply PBase.rearranged_trans; eauto]]); simpl; auto.
Qed.

(*@ex C99_whole_example *)
(** C99: two cones, 2 m wide at 0 m and at 6 m and 4 m wide at 3 m, where there is a plate: the hypotheses hold
    for every libm. *)
Lemma plate_whole_example : forall L : Libm, let a := (0, 1)%Z in let l1 := [(3, 2)]%Z in let l2 := [(6, 1)]%Z in
  zfits 0 (a :: l1 ++ l2) /\ zrising a (l1 ++ l2) /\ zend Flat false a /\ zend Flat true (last (l1 ++ l2) a) /\
  exists ps, Permutation ps (zplated (FA L) 0 Flat Flat a l1 l2) /\ SpecGroup.fair (PWalk.plain_sched (FA L)) /\ walk_segments (PWalk.plain_sched (FA L)) 20 (concat ps) None = Ok NoLoop.
Proof.
  intros L a l1 l2. split; [|split; [simpl; lia|split; [exact I|split; [exact I|]]]].
  - intros u U. unfold a, l1, l2 in U. simpl in U. decompose [or] U; subst; simpl; lia.
  - exists (zclosed (FA L) 0 Flat false a :: zclosed (FA L) 0 Flat true (6, 1)%Z :: zclosed (FA L) 0 Flat true (3, 2)%Z :: zshells (FA L) 0 a (l1 ++ l2)). split.
    { unfold zplated, zparts. cbn [last app l1 l2]. etransitivity; [|apply perm_swap]. apply perm_skip. apply perm_swap. } split; [apply PWalk.plain_fair|].
    set (g := concat (_ :: _)).
    assert (H : match walk_segments (PWalk.plain_sched (FA L)) 20 g None with Ok NoLoop => true | _ => false end = true) by (vm_compute; reflexivity).
    destruct (walk_segments (PWalk.plain_sched (FA L)) 20 g None) as [[]|]; try discriminate H. reflexivity.
Qed.
