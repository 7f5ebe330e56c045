(** Three loops of which one is the outline of the other two: the rooms are the other two. *)
From Coq Require Import String Reals ZArith Lra Lia Bool List Psatz Permutation Arith Classical.
From Verif Require Import Base Arith ArithR ArithF MPoint MLine MPoly MTri MGroup MCycles MBase MContain MRaum MRooms
  Spec SpecGroup SpecCycles SpecLoops SpecBase SpecRooms PPoint PLine PConvex POrder PGroup PWalk PBase PBase2.
Import ListNotations.
Local Open Scope list_scope.
Local Open Scope R_scope.
#[local] Existing Instance RA.

(** * The area of a loop is that of its triangles, rounded *)
Lemma area_total : forall lib inside l ts a x, triangle_mesh lib (fun _ _ => inside) l = Ok ts ->
  area (A := RA) lib (fun _ _ => inside) (fun _ _ => inside) l = Ok a -> total_area ts x -> a = Rround8 x.
Proof.
  intros lib inside l ts a x ET EA TA. unfold area, detailled_area in EA. rewrite ET in EA. cbn [bind] in EA.
  destruct (mapM triangle_area ts) as [as_|] eqn:EM; [|discriminate]. cbn [bind] in EA. injection EA as <-.
  change (@nround8 RA) with Rround8. f_equal. apply (total_unique ts); auto. apply total_nsum. auto.
Qed.
Lemma total_app : forall a b x y, total_area a x -> total_area b y -> total_area (a ++ b) (x + y).
Proof.
  intros a b x y (u & Fu & ->) Tb. induction Fu as [|t c a u E Fu IH]; [cbn; rewrite Rplus_0_l; exact Tb|].
  destruct IH as (w & Fw & Ew). exists (c :: w). split; [constructor; auto|]. cbn. rewrite <- Ew. apply Rplus_assoc.
Qed.

(** * The sweep *)
Section Sweep.
Context (tris : nat -> list (list (seg RA))) (area_of : nat -> R) (st : bstate RA) (S_ : nat -> R).
Hypothesis TT : forall k, (k < 3)%nat -> total_area (tris k) (S_ k).
Hypothesis AA : forall k, (k < 3)%nat -> Rabs (area_of k - S_ k) <= 5 / 10^9.
Hypothesis DI : forall a b, (a < 3)%nat -> (b < 3)%nat -> a <> b -> equal st a b = false.
Hypothesis POS : forall k, (k < 3)%nat -> 2 / 10^8 <= S_ k.

Lemma same_ne : forall a b, (a < 3)%nat -> (b < 3)%nat -> same st a b = Nat.eqb a b.
Proof. intros a b La Lb. unfold same. destruct (Nat.eqb_spec a b); [reflexivity|]. rewrite DI; auto. Qed.
Lemma comb_total : forall c polys, (forall k, In k c -> (k < 3)%nat) ->
  sweep_comb tris area_of st polys c = Ok (sweep area_of st (fold_right Rplus 0 (map S_ c)) (length polys) 0 polys).
Proof.
  intros c polys L. unfold sweep_comb.
  assert (T : total_area (flat_map tris c) (fold_right Rplus 0 (map S_ c))).
  { clear - L TT. induction c as [|k c IH]; [exists []; split; [constructor|reflexivity]|]. cbn [flat_map map fold_right]. apply total_app; [apply TT, L; left; auto|apply IH; intros; apply L; right; auto]. }
  destruct T as (as_ & F & E). assert (EM : mapM triangle_area (flat_map tris c) = Ok as_) by (apply mapM_all; exact F).
  rewrite EM. cbn [bind]. f_equal. rewrite (total_unique (flat_map tris c) (nsum as_) (fold_right Rplus 0 (map S_ c))); [reflexivity|apply total_nsum; auto|exists as_; auto].
Qed.
Lemma cond_iff : forall p t, (nabs (area_of p - t) <? EPS)%num = true <-> Rabs (area_of p - t) < 1 / 10^8.
Proof. intros p t. unfold EPS. ra. rewrite Rltb_true. split; intros; lra. Qed.

Lemma sweep_removes : forall a b o, Permutation [a; b; o] [0; 1; 2]%nat -> S_ o = S_ a + S_ b ->
  sweeps tris area_of st 3 1 [0; 1; 2]%nat = Ok (filter (fun k => negb (Nat.eqb k o)) [0; 1; 2]%nat).
Proof.
  intros a b o P SO.
  assert (IN : forall k, In k [a; b; o] <-> In k [0; 1; 2]%nat) by (intros k; split; apply Permutation_in; auto using Permutation_sym).
  assert (La : (a < 3)%nat) by (destruct (proj1 (IN a) (or_introl eq_refl)) as [<-|[<-|[<-|[]]]]; lia).
  assert (Lb : (b < 3)%nat) by (destruct (proj1 (IN b) (or_intror (or_introl eq_refl))) as [<-|[<-|[<-|[]]]]; lia).
  assert (Lo : (o < 3)%nat) by (destruct (proj1 (IN o) (or_intror (or_intror (or_introl eq_refl)))) as [<-|[<-|[<-|[]]]]; lia).
  assert (N : a <> b /\ a <> o /\ b <> o).
  { assert (ND : NoDup [a; b; o]) by (apply (Permutation_NoDup (Permutation_sym P)); repeat constructor; simpl; lia).
    inversion ND as [|? ? N1 ND1]; subst. inversion ND1 as [|? ? N2 _]; subst. simpl in *. intuition. }
  pose proof (POS a La). pose proof (POS b Lb). pose proof (POS o Lo).
  assert (CT : forall p t, (nabs (area_of p - t) <? EPS)%num = true <-> Rabs (area_of p - t) < 1 / 10^8) by apply cond_iff.
  assert (YES : forall t, t = S_ a + S_ b -> (nabs (area_of o - t) <? EPS)%num = true).
  { intros t ->. apply CT. pose proof (AA o Lo) as Q. rewrite SO in Q. eapply Rle_lt_trans; [exact Q|lra]. }
  assert (NOT : forall p t, (p < 3)%nat -> S_ p + 2 / 10^8 <= t -> (nabs (area_of p - t) <? EPS)%num = false).
  { intros p t Lp Q. apply not_true_iff_false. intros E. apply CT in E. pose proof (AA p Lp) as Q2. clear - E Q Q2. revert E Q2. unfold Rabs. repeat destruct (Rcase_abs _); lra. }
  assert (NONE : forall t l n i, (forall p, In p l -> (p < 3)%nat) -> (forall p, In p l -> S_ p + 2 / 10^8 <= t) -> sweep area_of st t n i l = l).
  { intros t l n i L Q. apply sweep_none. intros p Ip B. apply CT in B. rewrite NOT in B; auto. discriminate. }
  assert (SN := same_ne).
  assert (CMB : forall x y polys, (x < 3)%nat -> (y < 3)%nat -> sweep_comb tris area_of st polys [x; y] = Ok (sweep area_of st (S_ x + (S_ y + 0)) (length polys) 0 polys)).
  { intros x y polys Lx Ly. apply (comb_total [x; y] polys). intros k [<-|[<-|[]]]; auto. }
  assert (L3 : forall p, In p [0; 1; 2]%nat -> (p < 3)%nat) by (intros p [<-|[<-|[<-|[]]]]; lia).
  cbn [sweeps length Nat.ltb Nat.leb].
  change (combinations 2 [0; 1; 2]%nat) with [[0; 1]; [0; 2]; [1; 2]]%nat. cbn [foldM].
  assert (CASES : (o = 2 \/ o = 1 \/ o = 0)%nat) by lia.
  assert (P0 := POS 0%nat ltac:(lia)). assert (P1 := POS 1%nat ltac:(lia)). assert (P2 := POS 2%nat ltac:(lia)).
  assert (SUM : S_ a + S_ b + S_ o = S_ 0%nat + S_ 1%nat + S_ 2%nat).
  { destruct CASES as [-> | [-> | -> ]]; destruct N as (N1 & N2 & N3); assert (QA : (a = 0 \/ a = 1 \/ a = 2)%nat) by lia; assert (QB : (b = 0 \/ b = 1 \/ b = 2)%nat) by lia;
      destruct QA as [-> | [-> | ->]], QB as [-> | [-> | ->]]; try lia; lra. }
  rewrite (CMB 0%nat 1%nat) by lia. cbn [bind length].
  destruct CASES as [-> | [-> | -> ]].
  - cbn [sweep nth_error]. rewrite (NOT 0%nat), (NOT 1%nat), YES by (lia || lra). cbn [remove_first]. rewrite !SN by lia. cbn [Nat.eqb bind].
    rewrite (CMB 0%nat 2%nat) by lia. cbn [bind]. rewrite NONE by (intros p [<-|[<-|[]]]; lia || lra). rewrite (CMB 1%nat 2%nat) by lia. cbn [bind]. rewrite NONE by (intros p [<-|[<-|[]]]; lia || lra). reflexivity.
  - rewrite NONE by (intros p [<-|[<-|[<-|[]]]]; lia || lra). rewrite (CMB 0%nat 2%nat) by lia. cbn [bind length].
    cbn [sweep nth_error]. rewrite (NOT 0%nat), YES by (lia || lra). cbn [remove_first]. rewrite !SN by lia. cbn [Nat.eqb bind nth_error].
    rewrite (CMB 1%nat 2%nat) by lia. cbn [bind]. rewrite NONE by (intros p [<-|[<-|[]]]; lia || lra). reflexivity.
  - rewrite NONE by (intros p [<-|[<-|[<-|[]]]]; lia || lra). rewrite (CMB 0%nat 2%nat) by lia. cbn [bind length]. rewrite NONE by (intros p [<-|[<-|[<-|[]]]]; lia || lra).
    rewrite (CMB 1%nat 2%nat) by lia. cbn [bind length].
    cbn [sweep nth_error]. rewrite YES by (lia || lra). cbn [remove_first]. rewrite !SN by lia. cbn [Nat.eqb bind nth_error].
    rewrite (NOT 2%nat) by (lia || lra). reflexivity.
Qed.
End Sweep.

(*@ C100_outline *)
(** C100: three loops, in any order, whose segments are all of one class, none of which repeats another one.
    When the triangles of two of them cover the same area as those of the third one (their outline) and do
    not clash, keep_base_polygons drops the outline and returns the two others, in their order, each as a
    closed continuous polygon. *)
Lemma keep_two : forall (H : hashing nat) (HC : hashing (list nat)) lib inside h polygons tris area_of (size : nat -> R) a b o, lists_all HC ->
  loops h polygons -> length polygons = 3%nat -> (forall x, (x < 3)%nat -> ~ repeated h polygons x) ->
  triangulated lib inside h polygons tris area_of -> (forall k, (k < 3)%nat -> total_area (tris k) (size k) /\ 2 / 10^8 <= size k) ->
  Permutation [a; b; o] [0; 1; 2]%nat -> (a < b)%nat -> size o = size a + size b -> clash_free inside (tris a ++ tris b) ->
  exists ra rb, keep_base_polygons H HC lib inside h polygons = Ok (Some [ra; rb]) /\ room_of ra (loop h polygons a) /\ room_of rb (loop h polygons b).
Proof.
  intros H HC lib inside h polygons tris area_of size a b o LA LP L3 NR TR TS PM AB SO CF. unfold keep_base_polygons.
  destruct polygons as [|p0 [|p1 [|p2 [|? ?]]]]; try discriminate L3. clear L3. set (polygons := [p0; p1; p2]) in *.
  assert (L3 : length polygons = 3%nat) by reflexivity.
  destruct (TR 0%nat ltac:(rewrite L3; lia)) as [T0 A0]. destruct (TR 1%nat ltac:(rewrite L3; lia)) as [T1 A1]. destruct (TR 2%nat ltac:(rewrite L3; lia)) as [T2 A2].
  unfold loop in T0, A0, T1, A1, T2, A2. cbn [nth polygons] in T0, A0, T1, A1, T2, A2. unfold polygons at 1 2. cbn [mapM].
  rewrite T0, T1, T2. cbn [bind]. unfold polygons at 1. cbn [mapM]. rewrite A0, A1, A2. cbn [bind].
  set (tr := fun k => nth k [tris 0%nat; tris 1%nat; tris 2%nat] []). set (ar := fun k => @nth R k [area_of 0%nat; area_of 1%nat; area_of 2%nat] 0).
  match goal with |- context [keep_many H HC inside ?t ?f ?s0 ?l] => change (keep_many H HC inside t f s0 l) with (@keep_many RA H HC inside tr ar s0 [0; 1; 2]%nat) end.
  assert (TRQ : forall k, (k < 3)%nat -> tr k = tris k) by (intros [|[|[|k]]] L; try reflexivity; lia).
  assert (ARQ : forall k, (k < 3)%nat -> ar k = area_of k) by (intros [|[|[|k]]] L; try reflexivity; lia).
  clearbody tr ar.
  destruct (loops_state h polygons LP) as ((kl & PL) & SP & CY & DI). rewrite L3 in CY, DI. set (st := mkb h polygons) in *.
  match goal with |- context [keep_many H HC inside tr ar ?s0 _] => change s0 with st end.
  set (all := [0; 1; 2]%nat) in *.
  assert (IA : forall k, In k all -> (k < 3)%nat) by (intros k [<-|[<-|[<-|[]]]]; lia).
  assert (AE : forall k, (k < 3)%nat -> Rabs (ar k - size k) <= 5 / 10^9).
  { intros k L. rewrite ARQ by auto. destruct (TR k L) as [TM AM]. rewrite (area_total _ _ _ _ _ _ TM AM (proj1 (TS k L))).
    eapply Rle_trans; [apply Rround8_err|lra]. }
  unfold keep_many. rewrite mark_none.
  2:{ intros x y Ix Iy EQ. unfold loosely. destruct (alike_iff kl (val st x) (val st y)) as (r & Er & Ir); [intros t I; apply PL; eapply in_value; eauto|intros t I; apply PL; eapply in_value; eauto|].
      rewrite Er. destruct r; auto. exfalso. apply (NR x (IA x Ix)). exists y. rewrite L3. split; [auto|]. split; [|apply Ir; auto].
      intros ->. rewrite equal_refl in EQ. discriminate. }
  cbn [bind]. destruct (unmarked_none H st all 0) as (k1 & ->). unfold all at 1. cbn [length]. unfold all at 1.
  rewrite (sweep_removes tr ar st size) with (a := a) (b := b) (o := o); auto.
  2:{ intros k L. rewrite TRQ by auto. apply TS. auto. }
  2:{ intros k L. apply TS. auto. }
  cbn [bind].
  assert (KE : filter (fun k => negb (Nat.eqb k o)) [0; 1; 2]%nat = [a; b]).
  { assert (IN : forall k, In k [a; b; o] <-> In k [0; 1; 2]%nat) by (intros k; split; apply Permutation_in; auto using Permutation_sym).
    assert (La : (a < 3)%nat) by (apply IA, IN; simpl; auto). assert (Lb : (b < 3)%nat) by (apply IA, IN; simpl; auto). assert (Lo : (o < 3)%nat) by (apply IA, IN; simpl; auto).
    assert (ND : NoDup [a; b; o]) by (apply (Permutation_NoDup (Permutation_sym PM)); repeat constructor; simpl; lia).
    inversion ND as [|? ? N1 ND1]; subst. inversion ND1 as [|? ? N2 _]; subst. simpl in N1, N2.
    assert (QA : (a = 0 \/ a = 1)%nat) by lia. assert (QB : (b = 1 \/ b = 2)%nat) by lia.
    destruct QA as [-> | ->], QB as [-> | ->]; try lia; [assert (o = 2)%nat by lia|assert (o = 1)%nat by lia|assert (o = 0)%nat by lia]; subst o; reflexivity. }
  rewrite KE. set (kept := [a; b]) in *.
  assert (KA : incl kept all) by (intros k K; rewrite <- KE in K; apply filter_In in K; apply K).
  assert (KN : NoDup kept) by (unfold kept; constructor; [intros [Q|[]]; lia|constructor; [intros []|constructor]]).
  assert (CF' : clash_free inside (flat_map tr kept)).
  { unfold kept. cbn [flat_map]. rewrite !TRQ, app_nil_r by (apply IA, KA; simpl; auto). exact CF. }
  rewrite overlapping_none by auto. cbn [bind]. assert (NE : kept <> []) by discriminate.
  destruct (candidates_ok H HC inside tr st kept k1 CF' NE) as (k' & kc & ret & EC & NRet). rewrite EC. cbn [bind].
  destruct (choose_ok HC ar kc ret LA NRet) as (best & EB). rewrite EB. cbn [bind].
  assert (DS : forall x y, In x all -> In y all -> same st x y = true -> x = y) by (apply (sameD kl); auto).
  destruct (chosen_spec H HC inside st tr ar all DS kept KA KN _ _ _ _ _ _ LA (overlapping_none _ _ _ CF') EC EB) as (SB & _ & _ & BE).
  assert (best = kept) as -> by (apply sublist_full; auto; destruct (BE kept (sublist_refl _ _) NE CF') as [L|[L _]]; lia).
  destruct (copies kept st []) as (st1 & rooms & E1 & K1 & F1); [intros p I; apply CY; auto|]. rewrite E1. cbn [bind app].
  destruct (order_all kept st1) as (st2 & E2 & K2); [intros p I; apply kin_cyclic with st; auto|]. rewrite E2. cbn [bind].
  unfold kept in F1. inversion F1 as [|? ra ? ? Ra F2]; subst. inversion F2 as [|? rb ? ? Rb F3]; subst. inversion F3; subst.
  unfold kept. cbn [length Nat.eqb bind]. exists ra, rb. split; [reflexivity|]. split; [exact Ra|exact Rb].
Qed.
