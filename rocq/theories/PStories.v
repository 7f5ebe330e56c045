(** What raum_intex reports for a vessel that plates divide into stories. *)
From Coq Require Import String Reals ZArith Lra Lia Bool List Psatz Permutation Arith.
From Verif Require Import Base Arith ArithR ArithF MPoint MLine MPoly MHeap MVessel MContain MIntex MRaum
  Spec SpecGroup SpecLoops SpecRing SpecHeap SpecIntex SpecStack SpecSides SpecStories PPoint PLine PConvex PStack.
From Verif Require PIntex PHeap PVessel PRaum PSides PPlate SpecInside.
Import SpecInside(right_of_row, even_odd, polygon_of).
Import ListNotations.
Local Open Scope list_scope.
Local Open Scope R_scope.
#[local] Existing Instance RA.

Section One.
Context (inside : nat -> iroom RA -> pt RA -> res bool) (ro : iroom RA).
Let here : nat -> iroom RA -> pt RA -> res bool := fun n _ p => inside n ro p.
Lemma all_here : forall ps n, all_inside here n ro ps = all_inside inside n ro ps.
Proof. intros ps. induction ps as [|p ps IH]; intros n; auto. cbn [all_inside]. unfold here at 1. destruct (inside n ro (MRaum.ip_pt p)) as [[|]|]; cbn [bind]; auto. Qed.
Lemma some_here : forall want ps ss n, some_segment here want n ro ps ss = some_segment inside want n ro ps ss.
Proof.
  intros want ps ss. induction ss as [|s ss IH]; intros n; auto. cbn [some_segment]. rewrite all_here.
  destruct (all_inside inside n ro _) as [[m b]|]; cbn [bind]; auto. rewrite IH. reflexivity.
Qed.
Lemma category_here : forall want n ps ss, category here want n ro ps ss = category inside want n ro ps ss.
Proof. intros want n ps ss. unfold category. destruct ps; auto. apply some_here. Qed.
End One.

Lemma memb_in : forall x s, memb String.eqb x s = true <-> In x s.
Proof.
  intros x s. induction s as [|y s IH]; cbn [memb]; [split; [discriminate|intros []]|]. destruct (String.eqb_spec y x) as [->|N].
  - split; auto. left. auto.
  - rewrite IH. split; [right; auto|]. intros [E|I]; [congruence|auto].
Qed.
Lemma sadd_if : forall i b x s, ~ In x s -> sadd i x (s ++ if b : bool then [x] else []) = s ++ if b || i then [x] else [].
Proof.
  intros i b x s N. unfold sadd. destruct i; cbn [andb orb]; [|rewrite orb_false_r; reflexivity]. rewrite orb_true_r. destruct b.
  - replace (memb String.eqb x (s ++ [x])) with true; auto. symmetry. apply memb_in. apply in_app_iff. right. left. auto.
  - rewrite app_nil_r. replace (memb String.eqb x s) with false; auto. symmetry. destruct (memb String.eqb x s) eqn:E; auto. apply memb_in in E. contradiction.
Qed.
Lemma lookup_map : forall (k : string) (f : string -> intex) names, In k names -> exists x, lookup String.eqb k (map (fun j => (j, f j)) names) = Ok x.
Proof. intros k f names I. apply PSides.lookup_in. rewrite map_map. cbn [fst]. rewrite map_id. auto. Qed.

Section Room.
Context (q : pt RA -> bool -> Prop) (inside : nat -> iroom RA -> pt RA -> res bool) (ro : iroom RA) (turn : seg RA -> seg RA).
Context (name : vpart -> string) (gr : vpart -> ipoly RA) (names : list string) (I0 D0 : string -> list string).
Context (ANS : forall n p, exists b, inside n ro p = Ok b /\ forall c, q p c -> b = c).
Let R1 := ir_name ro.
Context (NI : forall k, ~ In R1 (I0 k)) (ND : forall k, ~ In R1 (D0 k)).
Let state (pre : list vpart) (k : string) : intex :=
  mkintex (I0 k ++ if existsb (fun c => String.eqb (name c) k && negb (flat_part c)) pre then [R1] else []) []
          (D0 k ++ if existsb (fun c => String.eqb (name c) k && flat_part c) pre then [R1] else []).
Lemma fold_parts : forall cs pre n, (forall c, In c cs -> PSides.fits q c (gr c) /\ In (name c) names) ->
  exists m, foldM (probe inside ro) (map (fun c => seen_as turn (name c) (gr c)) cs) (n, map (fun k => (k, state pre k)) names) =
    Ok (m, map (fun k => (k, state (pre ++ cs) k)) names).
Proof.
  intros cs. induction cs as [|c cs IH]; intros pre n F.
  - exists n. rewrite app_nil_r. reflexivity.
  - cbn [map foldM]. destruct (F c (or_introl eq_refl)) as [F1 F2].
    destruct (PSides.categories q (fun n _ p => inside n ro p) turn) with (c := c) (k := name c) (r := gr c) (n := n) (room := ro) as (m1 & m2 & m3 & C1 & C2 & C3); auto.
    rewrite category_here in C1, C2, C3. unfold probe at 1. rewrite C1. cbn [bind]. rewrite C2. cbn [bind]. rewrite C3. cbn [bind].
    change (p_name (seen_as turn (name c) (gr c))) with (name c).
    destruct (lookup_map (name c) (state pre) names F2) as (x & EX). rewrite EX. cbn [bind].
    match goal with |- context [if ?b then Ok tt else Ok tt] => replace (if b then Ok tt else Ok tt) with (@Ok unit tt) by (destruct b; reflexivity) end. cbn [bind].
    destruct (IH (pre ++ [c]) m3) as (m & E); [intros d D; apply F; right; auto|]. exists m. rewrite <- app_assoc in E. cbn [app] in E. rewrite <- E. f_equal. f_equal.
    rewrite map_map. apply map_ext. intros k. unfold state at 1 2 3. cbn [innenraum aussenraum indifferent]. unfold state. rewrite !existsb_app. cbn [existsb].
    rewrite !orb_false_r. rewrite (String.eqb_sym k (name c)). destruct (String.eqb (name c) k); cbn [andb].
    + fold R1. rewrite !sadd_if by auto. unfold sadd. cbn [andb].
      replace (match c with End Flat _ _ => false | _ => true end) with (negb (flat_part c)) by (destruct c as [|[|]]; reflexivity).
      replace (match c with End Flat _ _ => true | _ => false end) with (flat_part c) by (destruct c as [|[|]]; reflexivity). reflexivity.
    + rewrite !orb_false_r. reflexivity.
Qed.
End Room.

Lemma rooms_intex : forall (Q : roomplan -> pt RA -> bool -> Prop) (prepare : iroom RA -> res unit) inside turn name gr names rs,
  NoDup names -> NoDup (map rp_name rs) -> (forall r, prepare r = Ok tt) ->
  (forall r, In r rs -> (forall c, In c (rp_parts r) -> PSides.fits (Q r) c (gr c) /\ In (name c) names) /\
     forall n p, exists b, inside n (seen_room turn name gr r) p = Ok b /\ forall c, Q r p c -> b = c) ->
  raum_intex prepare inside names (map (seen_room turn name gr) rs) = Ok (map (fun k => (k, told_of name rs k)) names).
Proof.
  intros Q prepare inside turn name gr names rs NN NR PR H. unfold raum_intex. rewrite PSides.dedup_all by auto.
  assert (G : forall todo done n, NoDup (map rp_name (done ++ todo)) -> (forall r, In r todo -> In r rs) ->
    exists m, foldM (fun '(n, t) r => prepare r ;;; foldM (probe inside r) (ir_innen r ++ ir_aussen r) (n, t)) (map (seen_room turn name gr) todo)
      (n, map (fun k => (k, told_of name done k)) names) = Ok (m, map (fun k => (k, told_of name (done ++ todo) k)) names)).
  { intros todo. induction todo as [|r todo IH]; intros done n N S0.
    - exists n. rewrite app_nil_r. reflexivity.
    - cbn [map foldM]. rewrite PR. cbn [bind]. destruct (H r (S0 r (or_introl eq_refl))) as [H1 H2].
      assert (NI : forall f, ~ In (rp_name r) (map rp_name (filter f done))).
      { intros f I. apply in_map_iff in I as (r' & E & I). apply filter_In in I as [I _]. rewrite map_app in N. cbn [map] in N. apply NoDup_remove_2 in N. apply N. apply in_app_iff. left. rewrite <- E. apply in_map. auto. }
      destruct (fold_parts (Q r) inside (seen_room turn name gr r) (turn (rp_name r)) name gr names
        (fun k => map rp_name (filter (has_curved name k) done)) (fun k => map rp_name (filter (has_flat name k) done)) H2
        (fun k => NI _) (fun k => NI _) (rp_parts r) [] n H1) as (m & E).
      cbn [existsb app] in E. destruct (IH (done ++ [r]) m) as (m' & E'); [rewrite <- app_assoc; auto|intros; apply S0; right; auto|].
      exists m'. rewrite <- app_assoc in E'. cbn [app] in E'. rewrite <- E'.
      assert (E2 : map (fun k => (k, told_of name done k)) names = map (fun k => (k, mkintex (map rp_name (filter (has_curved name k) done) ++ []) [] (map rp_name (filter (has_flat name k) done) ++ []))) names).
      { apply map_ext. intros k. rewrite !app_nil_r. reflexivity. }
      rewrite E2. cbn [ir_innen ir_aussen seen_room app]. unfold seen_room in E at 2. cbn [ir_name] in E.
      match type of E with ?e = _ => match goal with |- context [foldM (probe inside ?r0) ?x ?y] => change (foldM (probe inside r0) x y) with e end end. rewrite E. cbn [bind].
      f_equal. f_equal. apply map_ext. intros k. unfold told_of. rewrite !filter_app, !map_app. cbn [filter].
      change (existsb (fun c => String.eqb (name c) k && negb (flat_part c)) (rp_parts r)) with (has_curved name k r). change (existsb (fun c => String.eqb (name c) k && flat_part c) (rp_parts r)) with (has_flat name k r).
      destruct (has_curved name k r), (has_flat name k r); reflexivity. }
  destruct (G rs [] 0%nat) as (m & E); auto. cbn [app] in E. unfold told_of at 1 in E. cbn [filter map] in E. rewrite E. reflexivity.
Qed.

Lemma story_fits : forall x0 inside_m s cs, let a := story_from s in let l := story_levels s in
  measured x0 (a :: l) -> rising a l -> l <> [] -> fair_shells a l -> (forall u, In u (a :: l) -> 1 / 10^4 <= snd u) ->
  (forall u v k, right_answers (inside_m (Shell u v) k) (outline_of x0 u v)) -> Permutation cs (parts_around s) ->
  forall c, In c cs -> exists r, graph_of x0 inside_m c = Ok r /\ PSides.fits (PSides.says (concat (map (walls_of x0) cs))) c r.
Proof.
  intros x0 inside_m s cs a l M RI NE FS DI AM PC c I. set (walls := concat (map (walls_of x0) cs)). set (bot := story_bot s) in *. set (top := story_top s) in *.
  assert (G : Permutation walls (concat (standing_parts x0 bot top a l))).
  { unfold walls. apply concat_perm. rewrite <- PSides.walls_parts. apply Permutation_map. exact PC. }
  apply (Permutation_in _ PC) in I. destruct (PSides.parts_cases bot top a l c RI FS I) as [(up & ->)|(u & v & -> & I2 & L & F)].
  - destruct (if up then top else bot) eqn:K.
    + destruct (PSides.flat_neutral x0 bot top a l walls M RI NE G inside_m up K) as (r & E & H). exists r. split; auto.
    + destruct (PSides.dome_sided x0 bot top a l walls M RI NE G inside_m up K) as (r & E & H); [destruct up; apply DI; [apply last_in|left; auto]|]. exists r. split; auto.
  - destruct (PSides.shell_sided x0 bot top a l walls M RI G inside_m u v I2) as (r & E & H); auto. exists r. split; auto.
Qed.

Lemma fair_app : forall l1 l2 a, fair_shells a (l1 ++ l2) -> fair_shells a l1 /\ fair_shells (last l1 a) l2.
Proof.
  intros l1. induction l1 as [|b l1 IH]; intros l2 a H; [split; [exact I|exact H]|]. cbn [app fair_shells] in H |- *. destruct H as (H1 & H2 & H3 & H4).
  destruct (IH l2 b H4) as [K1 K2]. split; auto. replace (last (b :: l1) a) with (last l1 b); auto. destruct l1 as [|c l1]; auto. rewrite !PStack.last_cons. reflexivity.
Qed.
Lemma story_of : forall ls bot top a s, In s (stories bot top a ls) -> (forall l, In l ls -> l <> []) -> rising a (concat ls) -> fair_shells a (concat ls) ->
  incl (story_from s :: story_levels s) (a :: concat ls) /\ story_levels s <> [] /\ rising (story_from s) (story_levels s) /\ fair_shells (story_from s) (story_levels s).
Proof.
  intros ls. induction ls as [|l ls IH]; intros bot top a s I NE RI FS; [destruct I|]. cbn [concat] in *.
  destruct (PPlate.rising_app _ _ _ RI) as [RI1 RI2]. destruct (fair_app _ _ _ FS) as [FS1 FS2].
  assert (ONE : forall k1 k2, s = mkstory k1 k2 a l -> incl (story_from s :: story_levels s) (a :: l ++ concat ls) /\ story_levels s <> [] /\ rising (story_from s) (story_levels s) /\ fair_shells (story_from s) (story_levels s)).
  { intros k1 k2 ->. cbn [story_from story_levels]. split; [intros u [->|U]; [left; auto|right; apply in_app_iff; auto]|]. split; [apply NE; left; auto|auto]. }
  cbn [stories] in I. destruct ls as [|l2 ls].
  - destruct I as [<-|[]]. eapply ONE; eauto.
  - destruct I as [<-|I]; [eapply ONE; eauto|].
    destruct (IH Flat top (last l a) s I) as (K1 & K2); auto; [intros; apply NE; right; auto|]. split; auto.
    intros u U. apply K1 in U as [<-|U]; [|right; apply in_app_iff; auto]. assert (IL : In (last l a) (a :: l)) by apply last_in. destruct IL as [E|IL]; [left; auto|right; apply in_app_iff; auto].
Qed.

(*@ C101_stories *)
(** C101: a standing vessel (as in C98) that flat plates at some of its levels divide into stories, any number of
    them, with one room per story, whose outer walls are the parts around the story (as raum_erstellen makes them
    for one and for two stories, C98 and C100); the rooms and their walls may be in any order and segments may be
    turned round.  raum_intex then reports for each part: its story's room is inside of it, if it is a shell or a
    head, and it is indifferent to it, if it is a flat end; a plate is indifferent to the room below and to the
    room above; no part has a room outside.  Parts of the vessel that belong to no room (other names) get nothing. *)
Lemma stories_intex : forall x0 bot top a ls (name : vpart -> string) names inside_m turn rs (prepare : iroom RA -> res unit) (inside : nat -> iroom RA -> pt RA -> res bool),
  (forall l, In l ls -> l <> []) -> measured x0 (a :: concat ls) -> rising a (concat ls) -> fair_shells a (concat ls) -> (forall u, In u (a :: concat ls) -> 1 / 10^4 <= snd u) ->
  (exists ss, Permutation ss (stories bot top a ls) /\ Forall2 (fun s r => Permutation (rp_parts r) (parts_around s)) ss rs) ->
  NoDup (map rp_name rs) -> NoDup names -> (forall r c, In r rs -> In c (rp_parts r) -> In (name c) names) ->
  (forall u v k, right_answers (inside_m (Shell u v) k) (outline_of x0 u v)) -> (forall n s, turned (turn n s) s) -> (forall r, prepare r = Ok tt) ->
  (forall r, In r rs -> let walls := concat (map (walls_of x0) (rp_parts r)) in exists vs, polygon_of vs walls /\
     forall n ro p, ir_name ro = rp_name r -> exists b, inside n ro p = Ok b /\ (off_walls walls p -> b = even_odd vs p)) ->
  exists gr, (forall r c, In r rs -> In c (rp_parts r) -> graph_of x0 inside_m c = Ok (gr c)) /\
    raum_intex prepare inside names (map (seen_room turn name gr) rs) = Ok (map (fun k => (k, told_of name rs k)) names).
Proof.
  intros x0 bot top a ls name names inside_m turn rs prepare inside NE M RI FS DI (ss & PS & F2) NR NN NA AM _ PR AN.
  assert (EACH : forall r c, In r rs -> In c (rp_parts r) -> exists g, graph_of x0 inside_m c = Ok g /\ PSides.fits (PSides.says (concat (map (walls_of x0) (rp_parts r)))) c g).
  { intros r c IR IC. assert (X : exists s, In s ss /\ Permutation (rp_parts r) (parts_around s)).
    { clear - F2 IR. induction F2 as [|s r' ss rs H F2 IH]; [destruct IR|]. destruct IR as [->|IR]; [exists s; split; [left|]; auto|]. destruct (IH IR) as (s' & K & H'). exists s'. split; [right|]; auto. }
    destruct X as (s & IS & PC). apply (Permutation_in _ PS) in IS. destruct (story_of ls bot top a s IS NE RI FS) as (K1 & K2 & K3 & K4).
    apply (story_fits x0 inside_m s (rp_parts r)); auto. destruct M as [M0 M1]. split; auto. }
  exists (fun c => match graph_of x0 inside_m c with Ok g => g | Err _ => MContain.mkip [] [] [] [] end). split.
  - intros r c IR IC. destruct (EACH r c IR IC) as (g & E & _). rewrite E. reflexivity.
  - apply (rooms_intex (fun r => PSides.says (concat (map (walls_of x0) (rp_parts r))))); auto. intros r IR. split.
    + intros c IC. destruct (EACH r c IR IC) as (g & E & H). rewrite E. split; auto. eapply NA; eauto.
    + intros n p. destruct (AN r IR) as (vs & PO & H). destruct (H n (seen_room turn name (fun c => match graph_of x0 inside_m c with Ok g => g | Err _ => MContain.mkip [] [] [] [] end) r) p eq_refl) as (b & E & K).
      exists b. split; auto. intros c [O Q]. rewrite (K O), (PSides.hits_cycle vs _ p PO). auto.
Qed.

Definition tower_name (c : vpart) : string :=
  match c with
  | Shell u _ => if Rle_dec (fst u) 1 then "B" else if Rle_dec (fst u) 4 then "D" else "F"
  | End Dome _ _ => "A"
  | End Flat _ u => if Rle_dec (fst u) 4 then "C" else if Rle_dec (fst u) 7 then "E" else "G"
  end%string.
(*@ex C101_stories_example *)
(** C101: a vessel of three stories, with a head A at the bottom, the shells B, D, F, the plates C and E, a flat end G and a
    part S elsewhere; R1 is the room at the top, R2 the one at the bottom.  The hypotheses can be met. *)
Lemma stories_example : exists inside gr, let around k1 k2 a l := parts_around (mkstory k1 k2 a l) in
  raum_intex (A := RA) (fun _ => Ok tt) inside ["A"; "B"; "C"; "D"; "E"; "F"; "G"; "S"]%string
    (map (seen_room (fun _ s => s) tower_name gr) [mkplan "R1" (around Flat Flat (6, 2) [(9, 1)]); mkplan "R2" (around Dome Flat (0, 2) [(3, 2)]); mkplan "R3" (around Flat Flat (3, 2) [(6, 2)])]) =
  Ok [("A", mkintex ["R2"] [] []); ("B", mkintex ["R2"] [] []); ("C", mkintex [] [] ["R2"; "R3"]); ("D", mkintex ["R3"] [] []);
      ("E", mkintex [] [] ["R1"; "R3"]); ("F", mkintex ["R1"] [] []); ("G", mkintex [] [] ["R1"]); ("S", mkintex [] [] [])]%string.
Proof.
  assert (M : measured 1 [(0, 2); (3, 2); (6, 2); (9, 1)]).
  { split; [exists 100000000%Z; lra|]. intros a [<-|[<-|[<-|[<-|[]]]]]; cbn [fst snd]; (split; [|split]); try lra.
    - exists 0%Z. lra.
    - exists 100000000%Z. lra.
    - exists 300000000%Z. lra.
    - exists 100000000%Z. lra.
    - exists 600000000%Z. lra.
    - exists 100000000%Z. lra.
    - exists 900000000%Z. lra.
    - exists 50000000%Z. lra. }
  set (s1 := mkstory Flat Flat (6, 2) [(9, 1)]). set (s2 := mkstory Dome Flat (0, 2) [(3, 2)]). set (s3 := mkstory Flat Flat (3, 2) [(6, 2)]).
  assert (PO : forall k1 k2 u v, In u [(0, 2); (3, 2); (6, 2); (9, 1)] -> In v [(0, 2); (3, 2); (6, 2); (9, 1)] -> fst u < fst v - 1 ->
    exists vs, polygon_of vs (concat (map (walls_of 1) (parts_around (mkstory k1 k2 u [v]))))).
  { intros k1 k2 u v U V L. destruct (PSides.standing_polygon 1 k1 k2 u [v] (parts_around (mkstory k1 k2 u [v]))) as (_ & vs & _ & P).
    - destruct M as [M0 M1]. split; auto. intros x [<-|[<-|[]]]; auto.
    - cbn. lra.
    - discriminate.
    - simpl. lia.
    - apply Permutation_refl.
    - eauto. }
  destruct (PO Flat Flat (6, 2) (9, 1)) as (vs1 & P1); [simpl; auto|simpl; auto|simpl; lra|].
  destruct (PO Dome Flat (0, 2) (3, 2)) as (vs2 & P2); [simpl; auto|simpl; auto|simpl; lra|].
  destruct (PO Flat Flat (3, 2) (6, 2)) as (vs3 & P3); [simpl; auto|simpl; auto|simpl; lra|]. clear PO. fold s1 in P1. fold s2 in P2. fold s3 in P3.
  set (ans := fun (_ : nat) (ro : iroom RA) p => Ok (even_odd (if String.eqb (ir_name ro) "R1" then vs1 else if String.eqb (ir_name ro) "R2" then vs2 else vs3) p)).
  exists ans.
  destruct (stories_intex 1 Dome Flat (0, 2) [[(3, 2)]; [(6, 2)]; [(9, 1)]] tower_name ["A"; "B"; "C"; "D"; "E"; "F"; "G"; "S"]%string
    (fun c _ _ _ _ p => match c with Shell u v => PIntex.answer_for (outline_of 1 u v) p | _ => Ok true end) (fun _ s => s)
    [mkplan "R1" (parts_around s1); mkplan "R2" (parts_around s2); mkplan "R3" (parts_around s3)] (fun _ => Ok tt) ans) as (gr & _ & E); auto.
  - intros l [<-|[<-|[<-|[]]]]; discriminate.
  - cbn. lra.
  - cbn. replace (2 - 2) with 0 by ring. rewrite Rabs_R0. rewrite Rabs_left by lra. lra.
  - cbn. intros u [<-|[<-|[<-|[<-|[]]]]]; cbn; lra.
  - exists [s1; s2; s3]. split; [|repeat constructor; apply Permutation_refl]. change (stories Dome Flat (0, 2) [[(3, 2)]; [(6, 2)]; [(9, 1)]]) with [s2; s3; s1].
    apply (Permutation_trans (l' := [s2; s1; s3])); [apply perm_swap|]. apply perm_skip. apply perm_swap.
  - repeat constructor; simpl; intuition discriminate.
  - repeat constructor; simpl; intuition discriminate.
  - intros r c [<-|[<-|[<-|[]]]]; cbn [rp_parts parts_around story_bot story_top story_from story_levels s1 s2 s3 vessel_parts shell_parts last];
      intros [<-|[<-|[<-|[]]]]; unfold tower_name; cbn [fst]; repeat (destruct (Rle_dec _ _); [|]); simpl; tauto.
  - intros u v k. apply PIntex.answer_right.
  - intros n s. left. reflexivity.
  - intros r [<-|[<-|[<-|[]]]]; cbn [rp_parts rp_name]; cbv zeta; [exists vs1|exists vs2|exists vs3]; (split; [assumption|]); intros n ro p EQ; unfold ans; rewrite EQ; eexists; (split; [reflexivity|]); intros _; reflexivity.
  - exists gr. etransitivity; [exact E|]. f_equal. cbn [map].
    assert (NS : (tower_name (Shell (0, 2) (3, 2)) = "B" /\ tower_name (Shell (3, 2) (6, 2)) = "D" /\ tower_name (Shell (6, 2) (9, 1)) = "F")%string).
    { unfold tower_name. cbn [fst]. repeat split; repeat (destruct (Rle_dec _ _); try lra); reflexivity. }
    assert (NE : forall up, (tower_name (End Flat up (3, 2)) = "C" /\ tower_name (End Flat up (6, 2)) = "E" /\ tower_name (End Flat up (9, 1)) = "G")%string).
    { intros up. unfold tower_name. cbn [fst]. repeat split; repeat (destruct (Rle_dec _ _); try lra); reflexivity. }
    destruct NS as (N1 & N2 & N3).
    assert (NA : tower_name (End Dome false (0, 2)) = "A"%string) by reflexivity. pose proof (NE true) as (T1 & T2 & T3). pose proof (NE false) as (U1 & U2 & U3).
    unfold told_of, has_curved, has_flat. cbn [filter existsb rp_parts parts_around story_bot story_top story_from story_levels s1 s2 s3 vessel_parts shell_parts last].
    rewrite N1, N2, N3, NA, T1, T2, T3, U1, U2. reflexivity.
Qed.
