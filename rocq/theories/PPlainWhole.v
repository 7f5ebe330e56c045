(** Vessels whose walls form exactly one loop: the running program on whole coordinates, and an example. *)
From Coq Require Import String Reals ZArith Lra Lia Bool List Psatz Permutation Arith Classical.
From Verif Require Import Base Arith ArithR ArithF MPoint MLine MPoly MTri MGroup MCycles MBase MContain MRaum MRooms
  Spec SpecGroup SpecLoops SpecBase SpecRooms SpecRing SpecDouble SpecWhole PPoint PLine PConvex POrder PGroup PLoops POneRoom PPlainLoop.
From Verif Require PWholeLoops PArea.
Import ListNotations.
Local Open Scope list_scope.

Lemma exact_value : forall L (h : list (seg (FA L))) (h' : list (seg RA)) c, exact_segs h h' -> exact_segs (MGroup.value h c) (MGroup.value h' c).
Proof.
  intros L h h' c X. unfold exact_segs, MGroup.value in *. induction c as [|k c IH]; cbn [flat_map]; [constructor|]. apply Forall2_app; auto.
  unfold obj. destruct (nth_error h k) as [s|] eqn:K.
  - destruct (Forall2_nth_l _ _ _ _ _ X k s K) as (t & -> & Q). repeat constructor; auto; apply Q.
  - apply nth_error_None in K. rewrite (Forall2_len _ _ _ _ _ X) in K. apply nth_error_None in K. rewrite K. constructor.
Qed.

(*@ C96_whole *)
(** C96: the running program finds the loop as well, when the walls have whole coordinates up to 2000. *)
Lemma ring_whole : forall L (schs : nat -> sched (FA L)) wf fuel (g : list (seg (FA L))) (g' : list (seg RA)), (forall k, fair (schs k)) ->
  exact_segs g g' -> Forall whole_seg g' ->
  ring g' -> (length g' < 125)%nat -> uncrossed g' -> ((2 * length g' + 1) * (length g' + 1) <= wf)%nat -> (0 < fuel)%nat ->
  (forall s, In s g' -> sc s <> CLineSegment) -> ~ one_way g' ->
  exists c h v, find_loops schs wf fuel g = Ok (Some ([c], h)) /\ exact_segs (MGroup.value h c) v /\ rearranged v g'.
Proof.
  intros L schs wf fuel g g' F E W RG LB UN LW LF CW NO.
  destruct (PWholeLoops.find_loops_whole L schs wf fuel g g' F E W) as (schs' & F' & Q).
  destruct (ring_finds schs' wf fuel g' F' RG LB UN LW LF CW NO) as (c & h & EF & RC & _). rewrite EF in Q.
  destruct (find_loops schs wf fuel g) as [[[cs h0]|]|e]; try contradiction. destruct Q as [-> X].
  exists c, h0, (MGroup.value h c). split; auto. split; auto. apply exact_value. exact X.
Qed.

(*@ex C96_example *)
(** C96: the walls of a shell and its two flat ends, drawn as Mantel and the ends draw them, meet the
    hypotheses: find_loops finds the loop and raum_erstellen makes one room of the three parts. *)
Lemma ring_example : forall (schs : nat -> sched RA) H HC inside inside2 Hs, (forall k, fair (schs k)) ->
  let w := fun a b c d => mkseg CWall (@mkpt RA (IZR a) (IZR b)) (@mkpt RA (IZR c) (IZR d)) in
  let g := [w 10 0 10 20; w (-10) 20 (-10) 0; w (-10) 0 10 0; w (-10) 20 10 20]%Z in
  (exists c h, find_loops schs 45 1 g = Ok (Some ([c], h)) /\ rearranged (MGroup.value h c) g) /\
  exists walls, vessel_rooms schs 45 1 H HC (fun _ _ => None) inside inside2 Hs [[0; 1]; [2]; [3]]%nat g = Ok (Some [mkraum "R1" 0 [] [walls] []]).
Proof.
  intros schs H HC inside inside2 Hs FS w g.
  assert (PE : forall a b c d : Z, @mkpt RA (IZR a) (IZR b) = @mkpt RA (IZR c) (IZR d) -> (a = c /\ b = d)%Z).
  { intros a b c d Q. injection Q as Q1 Q2. apply eq_IZR in Q1, Q2. auto. }
  assert (LZ : forall a b : Z, (Z.abs a <= 2000)%Z -> (Z.abs b <= 2000)%Z -> lattice 2000 (@mkpt RA (IZR a) (IZR b))) by (intros a b Ha Hb; exists a, b; auto).
  set (vs := map (fun '(a, b) => @mkpt RA (IZR a) (IZR b)) [(10, 0); (10, 20); (-10, 20); (-10, 0)]%Z).
  assert (ND : NoDup vs).
  { apply FinFun.Injective_map_NoDup; [intros [a b] [c d] E; apply PE in E; destruct E; congruence|]. repeat constructor; simpl; intuition congruence. }
  set (cyc := [w 10 0 10 20; w (-10) 20 10 20; w (-10) 20 (-10) 0; w (-10) 0 10 0]%Z).
  assert (JJ : Forall2 joins (cycle_edges vs) cyc) by (repeat (apply Forall2_cons; [unfold joins; simpl; auto|]); apply Forall2_nil).
  assert (PC : Permutation g cyc).
  { unfold g, cyc. apply perm_skip. eapply perm_trans; [apply perm_skip, perm_swap|]. apply perm_swap. }
  assert (RG : ring g).
  { exists vs, cyc. split; [simpl; lia|]. split; auto. split; [|split; auto].
    apply PWholeLoops.whole_separated. unfold vs. cbn [map]. repeat (constructor; [apply LZ; lia|]). constructor. }
  assert (LL : loop_in g cyc).
  { exists vs. split; [simpl; lia|]. split; auto. split; auto. intros s. apply Permutation_in, Permutation_sym. exact PC. }
  assert (PL : plan g).
  { split.
    + intros p I. unfold g, w in I. cbn [flat_map ij si sj app In] in I. repeat (destruct I as [<-|I]; [apply LZ; lia|]). destruct I.
    + intros s t q Is It CP (U & V).
      destruct Is as [<-|[<-|[<-|[<-|[]]]]]; destruct It as [<-|[<-|[<-|[<-|[]]]]];
      first [ solve [eexists; split; [left; reflexivity|left; reflexivity]]
            | solve [eexists; split; [left; reflexivity|right; left; reflexivity]]
            | solve [eexists; split; [right; left; reflexivity|left; reflexivity]]
            | solve [eexists; split; [right; left; reflexivity|right; left; reflexivity]]
            | solve [exfalso; apply CP; unfold crossproduct; simpl; lra]
            | solve [exfalso; destruct U as (u & Lu & ->), V as (v & Lv & E); injection E as E1 E2; simpl in E1, E2; lra] ]. }
  assert (UN : uncrossed g).
  { intros s t Is It. apply (plan_uncrossed g cyc PL LL); apply (Permutation_in _ PC); auto. }
  assert (CW : forall s, In s g -> sc s <> CLineSegment) by (intros s Is; repeat (destruct Is as [<-|Is]; [discriminate|]); destruct Is).
  assert (NO : ~ one_way g).
  { intros (us & _ & NU & cy & P & M).
    assert (Q : NoDup (map si g)).
    { apply (Permutation_NoDup (Permutation_map si (Permutation_sym P))). replace (map si cy) with us; auto.
      rewrite <- (proj1 (cycle_fst_snd _ us)), <- M, map_map. reflexivity. }
    cbn in Q. inversion Q as [|? ? _ Q1]; subst. inversion Q1 as [|? ? Q2 _]; subst. apply Q2. right. left. reflexivity. }
  split.
  - destruct (ring_finds schs 45 1 g FS RG) as (c & h & E & R & _); auto; try (simpl; lia). eauto.
  - destruct (ring_room schs 45 1 H HC (fun _ _ => None) inside inside2 Hs [[0; 1]; [2]; [3]]%nat g FS RG) as (walls & E & _); auto; try (simpl; lia).

    + intros l _ _. exists []. unfold triangle_mesh. cbv zeta. destruct (PArea.asked_any l) as (ns & -> & _). reflexivity.
    + eauto.
Qed.
