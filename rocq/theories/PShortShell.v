(** What raum_intex reports for a dividing head if the shell into which it bulges is short. *)
From Coq Require Import String Reals ZArith Lra Lia Bool List Psatz Permutation Arith.
From Verif Require Import Base Arith ArithR ArithF MPoint MLine MPoly MHeap MVessel MContain MIntex MRaum
  Spec SpecGroup SpecLoops SpecRing SpecHeap SpecIntex SpecStack SpecSides SpecPartition PPoint PLine PConvex PStack.
From Verif Require PIntex PHeap PVessel PRaum PSides PPlate PStories PPartition PHeadParts SpecStories SpecInside.
Import SpecInside(right_of_row, even_odd, polygon_of).
Import ListNotations.
Local Open Scope list_scope.
Local Open Scope R_scope.
#[local] Existing Instance RA.

Lemma head_rows_at : forall (u : level) x0 (up : bool) g d, 1 / 10^4 <= snd u -> head_intex (A := RA) (fst u) x0 (snd u) (sg up) g = Ok d ->
  let hg := Rmax (1 / 10) (snd u / 1000) in forall s r, In (s, r) d ->
  (forall p, In p (pr_external r) -> 54 / 100 * hg < sg up * (py p - fst u)) /\ exists p, In p (pr_internal r) /\ sg up * (py p - fst u) < 6 / 100 * hg.
Proof.
  intros u x0 up g. induction g as [|w g IH]; intros d D E hg s r I; unfold head_intex in E; cbn [mapM] in E; [injection E as <-; destruct I|].
  destruct (head_row (A := RA) (fst u) x0 (snd u) (sg up) w) as [row|] eqn:ER; [|discriminate E]. cbn [bind] in E.
  destruct (mapM (head_row (A := RA) (fst u) x0 (snd u) (sg up)) g) as [ds|] eqn:ED; [|discriminate E]. cbn [bind] in E. injection E as <-.
  destruct I as [->|I]; [|eapply IH; eauto]. unfold head_row in ER.
  match type of ER with bind ?e _ = _ => destruct e as [v|]; [|discriminate ER] end. cbn [bind] in ER. injection ER as <- <-. cbn [pr_external pr_internal].
  assert (HG : h_graph (A := RA) (snd u) = hg) by (unfold h_graph; rewrite nmax_R; reflexivity). rewrite HG.
  unfold Point_new. change (@nround8 RA) with Rround8. change (@nadd RA) with Rplus. change (@nmul RA) with Rmult.
  change (@ndec RA 5 100) with (5 / 100)%R. change (@ndec RA 55 100) with (55 / 100)%R.
  assert (G : 1 / 10 <= hg) by apply Rmax_l. clearbody hg. split.
  - intros p [<-|[]]. cbn [py]. pose proof (Rround8_err (fst u + sg up * (55 / 100) * hg)) as E2. apply PIntex.Rabs_le' in E2. destruct up; unfold sg in *; lra.
  - eexists. split; [left; reflexivity|]. cbn [py]. pose proof (Rround8_err (fst u + sg up * (5 / 100) * hg)) as E2. apply PIntex.Rabs_le' in E2. destruct up; unfold sg in *; lra.
Qed.
Lemma head_exact : forall x0 inside (up : bool) (u : level), decimal8 x0 -> decimal8 (fst u) -> decimal8 (snd u / 2) -> 1 / 10^4 <= snd u ->
  let hg := Rmax (1 / 10) (snd u / 1000) in exists r, graph_of x0 inside (End Dome up u) = Ok r /\
    (forall p s, In (p, s) (ip_ext r) -> 54 / 100 * hg < sg up * (py p - fst u)) /\
    (forall s, In s (ip_segs r) -> exists p, In (p, s) (ip_int r) /\ sg up * (py p - fst u) < 6 / 100 * hg).
Proof.
  intros x0 inside up u D0 D1 D2 D hg.
  destruct (PIntex.head_probes (fst u) x0 (snd u) (sg up) D0 D) as (lf & rt & E & H); [destruct up; auto|].
  assert (GR : head_graph (A := RA) (fst u) x0 (snd u) (sg up) = closed_by x0 Dome up u) by (destruct up; reflexivity).
  rewrite GR in E. destruct (PSides.dome_apex x0 up u D0 D1 D2) as (hh & EQ & AB). set (T := @mkpt RA x0 (fst u + sg up * hh)) in *.
  set (s := Wall (corner x0 false u) T) in *. set (t := Wall T (corner x0 true u)) in *.
  assert (ST : seg_sameb t s = false).
  { unfold seg_sameb, pt_sameb. ra. unfold s, t, T. cbn [Wall si sj sc px corner]. replace (Reqb x0 (x0 + sg false * (snd u / 2))) with false; [rewrite andb_false_r; reflexivity|].
    symmetry. apply Reqb_false. unfold sg. lra. }
  destruct (H lf (-1)) as (_ & _ & L3 & _ & _ & _ & L7); auto. destruct (H rt 1) as (_ & _ & R3 & _ & _ & _ & R7); auto.
  apply Forall_app in L7 as [L7 L8]. apply Forall_app in R7 as [R7 R8]. rewrite EQ in E. rewrite Forall_forall in L7, L8, R7, R8.
  destruct (head_rows_at u x0 up _ _ D E s lf (or_introl eq_refl)) as [A1 (pl & A2 & A3)]. destruct (head_rows_at u x0 up _ _ D E t rt (or_intror (or_introl eq_refl))) as [B1 (pr & B2 & B3)]. fold hg in A1, A3, B1, B3.
  eexists. split.
  - unfold graph_of. apply (PSides.renew_const _ (combine [s; t] [lf; rt]) _ [lf; rt]).
    + intros k. change (head_intex (A := RA) (fst u) x0 (snd u) (sg up) (closed_by x0 Dome up u) = Ok (combine [s; t] [lf; rt])). rewrite EQ, E. reflexivity.
    + cbn [walls_of]. rewrite EQ. fold s t. constructor; [|constructor; [|constructor]]; cbn [combine row_of]; rewrite ?PSides.same_refl, ?ST; auto.
  - cbn [walls_of]. rewrite EQ. fold s t. cbn [combine flat_map]. rewrite !app_nil_r. cbn [ip_segs ip_int ip_ext].
    split.
    + intros p w I. apply in_app_iff in I as [I|I]; apply in_map_iff in I as (p' & Q & I); injection Q as <- _; rewrite PSides.stored_new; auto.
    + intros w [<-|[<-|[]]]; [exists pl|exists pr]; (split; [|auto]); apply in_app_iff; [left|right]; apply in_map_iff; eexists; (split; [|eassumption]); rewrite PSides.stored_new; auto.
Qed.
(** A room whose points are all reported outside gets no entry. *)
Lemma fold_blind : forall (q : pt RA -> bool -> Prop) inside ro turn r k,
  (forall n p, exists c, inside n ro p = Ok c /\ forall d, q p d -> c = d) -> ip_segs r <> [] -> ip_ind r = [] -> ip_int r <> [] -> ip_ext r <> [] ->
  (forall s, In s (ip_segs r) -> exists p, In (p, s) (ip_int r) /\ q p false) -> (forall s, In s (ip_segs r) -> exists p, In (p, s) (ip_ext r) /\ q p false) ->
  once_in (seen_as turn k r) ro -> forall n t st x, foldM (probe inside ro) (walls_in ro) (n, t) = Ok st -> lookup String.eqb k t = Ok x -> lookup String.eqb k (snd st) = Ok x.
Proof.
  intros q inside ro turn r k ANS NS IND NI NX H1 H2 (pre & post & EW & NM) n t st x E L. rewrite EW, PPartition.fold_app in E.
  destruct (foldM (probe inside ro) pre (n, t)) as [[n1 t1]|] eqn:E1; [|discriminate E]. cbn [bind foldM] in E.
  apply (PPartition.fold_other _ _ k _ _ _ _ x) in E1; [|intros y Y; apply (NM y), in_app_iff; auto|auto]. cbn [snd] in E1.
  destruct (probe inside ro (n1, t1) (seen_as turn k r)) as [[n2 t2]|] eqn:EP; [|discriminate E]. cbn [bind] in E.
  apply (PPartition.fold_other _ _ k _ _ _ _ _ E); [intros y Y; apply (NM y), in_app_iff; auto|].
  unfold probe in EP. cbn [seen_as p_internal p_external p_indifferent p_segments p_name] in EP.
  assert (CAT : forall ips n, ips <> [] -> (forall s, In s (ip_segs r) -> exists p, In (p, s) ips /\ q p false) ->
    exists m, category inside true n ro (map (fun '(p, s) => MRaum.mkip p (turn s)) ips) (map turn (ip_segs r)) = Ok (m, false)).
  { intros ips n' NE K. unfold category. assert (NE' : map (fun '(p, s) => MRaum.mkip p (turn s)) ips <> []) by (destruct ips; [congruence|discriminate]).
    assert (EQ : forall (ps : list (intex_point RA)) y, ps <> [] -> match ps with [] => Ok (n', false) | _ :: _ => y end = y) by (intros [|? ?] y Q; [congruence|reflexivity]). rewrite EQ by auto.
    destruct (PSides.some_spec q (fun n _ p => inside n ro p) ltac:(intros; apply ANS) true (map (fun '(p, s) => MRaum.mkip p (turn s)) ips) (map turn (ip_segs r)) n' ro) as (m & c & EC & _ & K2 & _).
    rewrite PStories.some_here in EC. exists m. rewrite EC. f_equal. f_equal. apply K2; auto. intros s' S'. apply in_map_iff in S' as (s & <- & I). destruct (K s I) as (p & P & Q).
    exists (MRaum.mkip p (turn s)). split; [split|exact Q]; [|apply PSides.eqb_refl]. apply (in_map (fun '(p, s) => MRaum.mkip p (turn s))) in P. exact P. }
  destruct (CAT (ip_int r) n1 NI H1) as (m1 & C1). rewrite C1 in EP. cbn [bind] in EP. destruct (CAT (ip_ext r) m1 NX H2) as (m2 & C2). rewrite C2 in EP. cbn [bind] in EP.
  rewrite IND in EP. cbn [map category bind] in EP. match type of EP with bind ?z _ = _ => destruct z; [|discriminate EP] end. cbn [bind] in EP. injection EP as _ <-.
  rewrite (PPartition.lookup_update k k (fun x => mkintex (sadd false (ir_name ro) (innenraum x)) (sadd false (ir_name ro) (aussenraum x)) (sadd false (ir_name ro) (indifferent x))) t1 x E1).
  rewrite String.eqb_refl. unfold sadd. cbn [andb]. destruct x; reflexivity.
Qed.

(*@ C102_short_refuted *)
(** C102 (finding): the shell into which the head bulges must be long enough.  In its graph a head is 0.1 high (or 1/1000 of the diameter),
    also if the head itself is much lower (0.04 for a diameter of 0.2).  If the shell above is between 6/100 and 1/2 as
    long as that and closed by a flat end, the room above is reported neither outside nor inside of the head nor as
    indifferent, whatever the answers about inner points, as long as they are right off the walls. *)
Lemma short_shell : forall x0 bot a l1 z inside_m, let m := last l1 a in let hg := Rmax (1 / 10) (snd m / 1000) in
  measured x0 (a :: l1 ++ [z]) -> rising a (l1 ++ [z]) -> l1 <> [] -> 1 / 10^4 <= snd m -> snd m <= snd z -> 6 / 100 * hg <= fst z - fst m <= hg / 2 ->
  exists g, graph_of x0 inside_m (End Dome true m) = Ok g /\
  forall (prepare : iroom RA -> res unit) (inside : nat -> iroom RA -> pt RA -> res bool) k names turn1 turn2 r1 r2 rooms vs1 vs2,
  once_in (seen_as turn1 k g) r1 -> once_in (seen_as turn2 k g) r2 -> rooms = [r1; r2] \/ rooms = [r2; r1] ->
  NoDup names -> (forall r y, In r rooms -> In y (walls_in r) -> In (p_name y) names) ->
  (forall r, prepare r = Ok tt) -> (forall n r p, exists b, inside n r p = Ok b) ->
  (let W := hollow_side x0 bot Flat true a l1 [z] in polygon_of vs1 W /\ forall n p, off_walls W p -> inside n r1 p = Ok (even_odd vs1 p)) ->
  (let W := bulge_side x0 bot Flat true a l1 [z] in polygon_of vs2 W /\ forall n p, off_walls W p -> inside n r2 p = Ok (even_odd vs2 p)) ->
  exists t, raum_intex prepare inside names rooms = Ok t /\ lookup String.eqb k t = Ok (mkintex [ir_name r1] [] []).
Proof.
  intros x0 bot a l1 z inside_m m hg M RI N1 D DW [HZ1 HZ2]. assert (N2 : [z] <> []) by discriminate.
  destruct (PPlate.rising_app _ _ _ RI) as [RI1 RI2]. fold m in RI2. assert (Im : In m (a :: l1)) by apply last_in. assert (M' := M). destruct M' as [D0 MM].
  assert (M2 : measured x0 [m; z]).
  { split; auto. intros u U. apply MM. cbn [In] in *. rewrite in_app_iff. cbn [In]. destruct U as [<-|[U|[]]]; tauto. }
  destruct (proj2 M2 m (or_introl eq_refl)) as (B1 & B2 & B3). destruct (proj2 M2 z (or_intror (or_introl eq_refl))) as (Z1 & Z2 & Z3).
  assert (HG : 1 / 10 <= hg) by apply Rmax_l.
  destruct (PPartition.head_points x0 inside_m true m D0 B1 B2 D) as (g & EG & G1 & G2 & G3 & G4 & G5 & G6 & G7). fold hg in G5, G6.
  destruct (head_exact x0 inside_m true m D0 B1 B2 D) as (g' & EG' & X1 & X2). rewrite EG in EG'. injection EG' as <-. fold hg in X1, X2. exists g. split; auto.
  intros prepare inside k names turn1 turn2 r1 r2 rooms vs1 vs2 O1 O2 RO ND NM PR T [P1 A1] [P2 A2].
  assert (ANS : forall (W : list (seg RA)) vs r, polygon_of vs W -> (forall n p, off_walls W p -> inside n r p = Ok (even_odd vs p)) ->
    forall n p, exists c, inside n r p = Ok c /\ forall d, PSides.says W p d -> c = d).
  { intros W vs r PO H n p. destruct (T n r p) as (c & E). exists c. split; auto. intros d [O Q]. rewrite (H n p O) in E. injection E as <-. rewrite (PSides.hits_cycle vs W p PO). exact Q. }
  set (W2 := bulge_side x0 bot Flat true a l1 [z]) in *. set (gf := concat (standing_parts x0 Flat Flat m [z])).
  assert (PF : Permutation gf (closed_by x0 Flat false m ++ concat (closed_by x0 Flat true (last [z] m) :: shells x0 m [z]))) by apply Permutation_refl.
  assert (S1 : forall n t st x, foldM (probe inside r1) (walls_in r1) (n, t) = Ok st -> lookup String.eqb k t = Ok x ->
    lookup String.eqb k (snd st) = Ok (mkintex (sadd true (ir_name r1) (innenraum x)) (aussenraum x) (indifferent x))).
  { intros n t st x E L. apply (PPartition.fold_head (PSides.says (hollow_side x0 bot Flat true a l1 [z])) inside r1 turn1 true g k (ANS _ _ _ P1 A1) G1 G2 G3 G4) with (n := n) (t := t); auto.
    - intros p s I. apply (PPartition.hollow_points x0 bot Flat true a l1 [z] p); auto. apply (G5 p s I).
    - intros p s I. apply (PPartition.hollow_points x0 bot Flat true a l1 [z] p); auto. apply (G6 p s I). }
  assert (S2 : forall n t st x, foldM (probe inside r2) (walls_in r2) (n, t) = Ok st -> lookup String.eqb k t = Ok x -> lookup String.eqb k (snd st) = Ok x).
  { intros n t st x E L. apply (fold_blind (PSides.says W2) inside r2 turn2 g k (ANS _ _ _ P2 A2) G1 G2 G3 G4) with (n := n) (t := t); auto.
    - intros s I. destruct (X2 s I) as (p & IP & LP). exists p. split; auto. destruct (G5 p s IP) as [U [NH _]]. assert (U0 := U). destruct U0 as [U0 _]. unfold sg in LP, U0.
      apply (PPartition.bulge_rest x0 true false m _ gf); auto; [lra| |intros E2; rewrite E2 in U0; lra].
      apply (PSides.says_in x0 Flat Flat m [z] _ M2 RI2 (Permutation_refl _) m z); try lra; [left; auto|]. apply PPartition.in_trap; lra.
    - intros s I. destruct (proj2 (G7 s I)) as (p & IP). exists p. split; auto. destruct (G6 p s IP) as [U _]. assert (U0 := U). destruct U0 as [U0 _]. pose proof (X1 p s IP) as HP. unfold sg in HP, U0.
      apply (PHeadParts.bulge_same x0 true false m _ gf); auto; [lra| |intros E2; rewrite E2 in U0; lra].
      apply (PSides.says_end x0 Flat Flat m [z] gf M2 RI2 N2 (Permutation_refl _) true p). cbn [last]. unfold sg. lra. }
  clear ANS G1 G2 G3 G4 G5 G6 G7 X1 X2 P1 P2 A1 A2.
  destruct (PHeadParts.raum_total prepare inside names rooms PR T ND NM) as (t & ET & KT). exists t. split; auto.
  assert (KN : In k names).
  { destruct O1 as (pre & post & E & _). apply (NM r1 (seen_as turn1 k g)); [destruct RO as [-> | ->]; simpl; auto|]. rewrite E. apply in_app_iff. right. left. auto. }
  unfold raum_intex in ET. rewrite PSides.dedup_all in ET by auto. set (t0 := map (fun j => (j, mkintex [] [] [])) names : table) in *.
  assert (L0 : lookup String.eqb k t0 = Ok (mkintex [] [] [])).
  { unfold t0. clear - KN. induction names as [|j l IH]; [destruct KN|]. cbn [map lookup]. destruct (String.eqb_spec j k); auto. destruct KN; [congruence|auto]. }
  destruct RO as [RO|RO]; rewrite RO in ET; cbn [foldM] in ET; rewrite !PR in ET; cbn [bind] in ET.
  - match type of ET with context [bind (foldM (probe inside r1) ?l ?i) _] => destruct (foldM (probe inside r1) l i) as [[n1 t1]|] eqn:E1 end; [|discriminate ET]. cbn [bind] in ET. rewrite ?PR in ET. cbn [bind] in ET.
    match type of ET with context [bind (foldM (probe inside r2) ?l ?i) _] => destruct (foldM (probe inside r2) l i) as [[n2 t2]|] eqn:E2 end; [|discriminate ET]. cbn [bind] in ET. rewrite ?PR in ET. cbn [bind] in ET. injection ET as <-.
    apply (S2 _ _ _ _ E2). apply (S1 _ _ _ _ E1 L0).
  - match type of ET with context [bind (foldM (probe inside r2) ?l ?i) _] => destruct (foldM (probe inside r2) l i) as [[n1 t1]|] eqn:E1 end; [|discriminate ET]. cbn [bind] in ET. rewrite ?PR in ET. cbn [bind] in ET.
    match type of ET with context [bind (foldM (probe inside r1) ?l ?i) _] => destruct (foldM (probe inside r1) l i) as [[n2 t2]|] eqn:E2 end; [|discriminate ET]. cbn [bind] in ET. rewrite ?PR in ET. cbn [bind] in ET. injection ET as <-.
    exact (S1 _ _ _ _ E2 (S2 _ _ _ _ E1 L0)).
Qed.

(*@ex C102_short_refuted_example *)
(** C102: a cylinder of diameter 0.2 with flat ends A and D at 0 m and 0.35 m, divided by a head H at 0.3 m that bulges upwards:
    room R1 under it, room R2 above; inner points by the even-odd rule.  Only R1 is reported for H. *)
Lemma short_example : let a := (0, 2 / 10) in let m := (3 / 10, 2 / 10) in let z := (35 / 100, 2 / 10) in exists gr inside t,
  (exists inside_m, forall c, c = End Dome true m -> graph_of 1 inside_m c = Ok (gr c)) /\
  (exists vs1 vs2, polygon_of vs1 (hollow_side 1 Flat Flat true a [m] [z]) /\ polygon_of vs2 (bulge_side 1 Flat Flat true a [m] [z]) /\
    inside = fun (_ : nat) (ro : iroom RA) p => Ok (even_odd (if String.eqb (ir_name ro) "R1" then vs1 else vs2) p)) /\
  raum_intex (A := RA) (fun _ => Ok tt) inside ["A"; "B"; "C"; "D"; "H"]%string
    [mkiroom "R2" [] [seen_as (fun s => s) "H" (gr (End Dome true m))]; mkiroom "R1" [] [seen_as (fun s => s) "H" (gr (End Dome true m))]]%string = Ok t /\
  lookup String.eqb "H"%string t = Ok (mkintex ["R1"] [] [])%string.
Proof.
  intros a m z. set (ans := fun (_ : vpart) (_ _ _ _ : nat) (_ : pt RA) => Ok true).
  assert (HX : Rmax (1 / 10) (2 / 10 / 1000) = 1 / 10) by (apply Rmax_left; lra).
  assert (DC : forall y k, y = IZR k / 10 ^ 8 -> decimal8 y) by (intros y k ->; exists k; reflexivity).
  assert (M : measured 1 (a :: [m] ++ [z])).
  { split; [apply (DC _ 100000000%Z); lra|]. intros u U. cbn [In app] in U.
    destruct U as [<-|[<-|[<-|[]]]]; unfold a, m, z; cbn [fst snd]; (split; [|split; [apply (DC _ 10000000%Z); lra|lra]]);
      [apply (DC _ 0%Z)|apply (DC _ 30000000%Z)|apply (DC _ 35000000%Z)]; lra. }
  assert (RI : rising a ([m] ++ [z])) by (cbn; unfold a, m, z; cbn; lra).
  destruct (PPartition.head_polygons 1 Flat Flat true a [m] [z] M RI) as [(vs1 & P1) (vs2 & P2)]; try discriminate; [cbn; lia|].
  set (inside := fun (_ : nat) (ro : iroom RA) p => Ok (even_odd (if String.eqb (ir_name ro) "R1" then vs1 else vs2) p)).
  destruct (short_shell 1 Flat a [m] z ans M RI) as (g & EG & HD); [discriminate|cbn; lra|cbn; lra|cbn [last snd fst m z]; rewrite HX; lra|].
  change (last [m] a) with m in EG. set (w := seen_as (fun s => s) "H" g).
  destruct (HD (fun _ => Ok tt) inside "H"%string ["A"; "B"; "C"; "D"; "H"]%string (fun s => s) (fun s => s) (mkiroom "R1" [] [w]) (mkiroom "R2" [] [w]) [mkiroom "R2" [] [w]; mkiroom "R1" [] [w]] vs1 vs2)%string as (t & ET & LT).
  - exists [], []. split; [reflexivity|intros y []].
  - exists [], []. split; [reflexivity|intros y []].
  - right. reflexivity.
  - repeat constructor; simpl; intuition discriminate.
  - intros r y [<-|[<-|[]]]; cbn [walls_in ir_innen ir_aussen app]; intros [<-|[]]; cbn; tauto.
  - reflexivity.
  - intros n r p. unfold inside. eauto.
  - split; [exact P1|]. intros n p _. reflexivity.
  - split; [exact P2|]. intros n p _. reflexivity.
  - exists (fun _ => g), inside, t. split; [exists ans; intros c ->; exact EG|]. split; [exists vs1, vs2; auto|]. split; [exact ET|exact LT].
Qed.
