(** convex_hull: the monotone chain algorithm over the exact reals. *)
From Coq Require Import Reals ZArith Lra Lia Bool List Psatz Permutation Sorted.
From Verif Require Import Base Arith ArithR MPoint MLine MPoly Spec PPoint PLine PShape PConvex POrder.
Import ListNotations.
Local Open Scope R_scope.
#[local] Existing Instance RA.

Notation RR := (R * R)%type.
Definition lexlt (a b : RR) : Prop := fst a < fst b \/ (fst a = fst b /\ snd a < snd b).
Definition lexle (a b : RR) : Prop := a = b \/ lexlt a b.
Definition cr (o a b : RR) : R := (fst a - fst o) * (snd b - snd o) - (snd a - snd o) * (fst b - fst o).

Lemma cross_R : forall o a b : RR, cross (A := RA) o a b = cr o a b.
Proof. reflexivity. Qed.
Lemma lexlt_irrefl : forall a, ~ lexlt a a.
Proof. unfold lexlt; intros [x y]; cbn; lra. Qed.
Lemma lexlt_trans : forall a b c, lexlt a b -> lexlt b c -> lexlt a c.
Proof. unfold lexlt; intros [x y] [x' y'] [x'' y'']; cbn; lra. Qed.
Lemma lex_total : forall a b, lexlt a b \/ a = b \/ lexlt b a.
Proof.
  unfold lexlt; intros [x y] [x' y']; cbn. destruct (Rtotal_order x x') as [?|[->|?]]; try tauto.
  destruct (Rtotal_order y y') as [?|[->|?]]; tauto.
Qed.
Lemma lexle_trans : forall a b c, lexle a b -> lexle b c -> lexle a c.
Proof. intros a b c [->|H] [->|H']; unfold lexle; auto. right. eapply lexlt_trans; eauto. Qed.
Lemma lexle_antisym : forall a b, lexle a b -> lexle b a -> a = b.
Proof. intros a b [->|H] [E|H']; auto. exfalso. eapply lexlt_irrefl, lexlt_trans; eauto. Qed.
Lemma lexlt_le_trans : forall a b c, lexlt a b -> lexle b c -> lexlt a c.
Proof. intros a b c H [<-|H']; auto. eapply lexlt_trans; eauto. Qed.
Lemma lexle_lt_trans : forall a b c, lexle a b -> lexlt b c -> lexlt a c.
Proof. intros a b c [->|H'] H; auto. eapply lexlt_trans; eauto. Qed.

(** Vectors of the right half plane (the upper part of the axis included). *)
Definition pos (x y : R) : Prop := 0 < x \/ (x = 0 /\ 0 < y).
Definition nneg (x y : R) : Prop := (x = 0 /\ y = 0) \/ pos x y.

Lemma half_strict : forall a b c d e f, pos a b -> pos c d -> pos e f ->
  a * d - b * c > 0 -> c * f - d * e >= 0 -> a * f - b * e > 0.
Proof.
  intros a b c d e f [A|[-> A]] [C|[-> C]] [E|[-> E]] H1 H2; try nra.
Qed.
Lemma half_strict' : forall a b c d e f, pos a b -> pos c d -> pos e f ->
  a * d - b * c >= 0 -> c * f - d * e > 0 -> a * f - b * e > 0.
Proof.
  intros a b c d e f [A|[-> A]] [C|[-> C]] [E|[-> E]] H1 H2; try nra.
Qed.
Lemma half_weak : forall a b c d e f, pos a b -> pos c d -> nneg e f ->
  a * d - b * c >= 0 -> c * f - d * e >= 0 -> a * f - b * e >= 0.
Proof.
  intros a b c d e f [A|[-> A]] [C|[-> C]] [[-> ->]|[E|[-> E]]] H1 H2; try nra.
Qed.
Lemma lexlt_pos : forall a b, lexlt a b -> pos (fst b - fst a) (snd b - snd a).
Proof. intros a b [H|[H H']]; [left|right]; lra. Qed.
Lemma lexle_nneg : forall a b, lexle a b -> nneg (fst b - fst a) (snd b - snd a).
Proof. intros a b [->|H]; [left; lra|right; apply lexlt_pos; auto]. Qed.

(** u < o < a < p: two left turns u o a and o a p give a left turn u o p. *)
Lemma turn_chain : forall u o a p, lexlt u o -> lexlt o a -> lexlt a p -> cr u o a > 0 -> cr o a p > 0 -> cr u o p > 0.
Proof.
  intros u o a p H1 H2 H3 C1 C2. apply lexlt_pos in H1, H2, H3. unfold cr in *.
  set (e1 := fst o - fst u) in *. set (e2 := snd o - snd u) in *.
  set (f1 := fst a - fst o) in *. set (f2 := snd a - snd o) in *.
  set (g1 := fst p - fst a) in *. set (g2 := snd p - snd a) in *.
  assert (X : e1 * g2 - e2 * g1 > 0).
  { apply (half_strict e1 e2 f1 f2 g1 g2); auto; unfold e1, e2, f1, f2, g1, g2 in *; nra. }
  unfold e1, e2, f1, f2, g1, g2 in *. nra.
Qed.
(** a below o -> p: the points left of o -> a and before a are left of o -> p. *)
Lemma pop_before : forall o a p q, lexlt o a -> lexlt a p -> lexle o q -> cr o a p <= 0 -> cr o a q >= 0 -> cr o p q >= 0.
Proof.
  intros o a p q H1 H2 H3 C1 C2. apply lexlt_pos in H1, H2. apply lexle_nneg in H3. unfold cr in *.
  set (e1 := fst a - fst o) in *. set (e2 := snd a - snd o) in *.
  set (f1 := fst p - fst a) in *. set (f2 := snd p - snd a) in *.
  set (v1 := fst q - fst o) in *. set (v2 := snd q - snd o) in *.
  assert (X : f1 * v2 - f2 * v1 >= 0).
  { apply (half_weak f1 f2 e1 e2 v1 v2); auto; unfold e1, e2, f1, f2, v1, v2 in *; nra. }
  unfold e1, e2, f1, f2, v1, v2 in *. nra.
Qed.
Lemma pop_after : forall o a p q, cr o a p <= 0 -> cr o a q >= 0 -> cr a p q >= 0 -> cr o p q >= 0.
Proof. intros o a p q H1 H2 H3. unfold cr in *. nra. Qed.
(** stop at t: the points before t are left of t -> p. *)
Lemma stop_before : forall o t p q, lexlt o t -> lexlt t p -> lexlt q t -> cr o t p > 0 -> cr o t q >= 0 -> cr t p q >= 0.
Proof.
  intros o t p q H1 H2 H3 C1 C2. apply lexlt_pos in H1, H2, H3. unfold cr in *.
  set (f1 := fst t - fst o) in *. set (f2 := snd t - snd o) in *.
  set (g1 := fst p - fst t) in *. set (g2 := snd p - snd t) in *.
  set (w1 := fst t - fst q) in *. set (w2 := snd t - snd q) in *.
  assert (X : w1 * g2 - w2 * g1 > 0).
  { apply (half_strict' w1 w2 f1 f2 g1 g2); auto; unfold f1, f2, g1, g2, w1, w2 in *; nra. }
  unfold f1, f2, g1, g2, w1, w2 in *. nra.
Qed.

(** The chain, latest point first. *)
Definition descending (ch : list RR) : Prop := StronglySorted (fun a b => lexlt b a) ch.
Fixpoint turning (ch : list RR) : Prop :=
  match ch with
  | p :: ((a :: ((o :: _) as r)) as r') => cr o a p > 0 /\ turning r'
  | _ => True
  end.
(** Every q of S is on or left of every edge of the chain. *)
Definition supports (S : list RR) (ch : list RR) : Prop :=
  forall a o q, In (a, o) (pairs ch) -> In q S -> cr o a q >= 0.

Lemma pairs_cons : forall X (x y : X) l, pairs (x :: y :: l) = (x, y) :: pairs (y :: l).
Proof. reflexivity. Qed.
Lemma turning_tl : forall x ch, turning (x :: ch) -> turning ch.
Proof. intros x [|y [|z r]] H; cbn in *; tauto. Qed.

Lemma hull_pop_cons : forall a o r p,
  hull_pop (A := RA) (a :: o :: r) p = if Rleb (cr o a p) 0 then hull_pop (A := RA) (o :: r) p else a :: o :: r.
Proof. reflexivity. Qed.

(** Edges below the top have p strictly to their left. *)
Lemma support_new : forall ch p, descending (p :: ch) -> turning (p :: ch) -> supports [p] ch.
Proof.
  induction ch as [|t ch IH]; intros p D T; [intros a o q []|].
  destruct ch as [|o r]; [intros a o q []|].
  intros a b q Hab Hq. destruct Hq as [<-|[]]. rewrite pairs_cons in Hab.
  assert (T1 : cr o t p > 0) by (cbn in T; tauto).
  destruct Hab as [E|Hab]; [injection E as <- <-; lra|].
  assert (D' : lexlt t p /\ descending (t :: o :: r)).
  { inversion D as [|? ? D1 F1]; subst. inversion F1; subst; auto. }
  destruct D' as [Htp D'].
  assert (Hot : lexlt o t /\ descending (o :: r)).
  { inversion D' as [|? ? D1 F1]; subst. inversion F1; subst; auto. }
  destruct Hot as [Hot D2].
  apply (IH p) with (q := p); cbn [In]; auto.
  - constructor; auto. inversion D as [|? ? D1 F1]; subst. inversion F1; subst; auto.
  - destruct r as [|u r']; [exact I|]. cbn [turning].
    assert (T2 : turning (t :: o :: u :: r')) by (apply turning_tl in T; exact T). cbn [turning] in T2.
    assert (lexlt u o). { inversion D2 as [|? ? D3 F3]; subst. inversion F3; subst; auto. }
    split; [|tauto]. apply (turn_chain u o t p); tauto.
Qed.

Lemma pop_spec : forall ch p S m,
  descending ch -> turning ch -> supports S ch -> ch <> [] -> incl ch S ->
  last ch p = m -> (forall q, In q S -> lexle m q) ->
  (forall q, In q S -> lexlt q p) ->
  (forall q t r, ch = t :: r -> In q S -> lexle t q -> cr t p q >= 0) ->
  let ch' := hull_pop (A := RA) ch p in
  ch' <> [] /\ last ch' p = m /\ incl ch' S /\ descending (p :: ch') /\ turning (p :: ch') /\ supports S ch' /\
  (forall q t r, ch' = t :: r -> In q S -> cr t p q >= 0).
Proof.
  induction ch as [|a ch IH]; intros p S m D T SU NE IN LA MI MX PT; [congruence|].
  assert (DD : forall c, descending c -> incl c S -> descending (p :: c)).
  { intros c Dc Ic. constructor; auto. apply Forall_forall. intros x Hx. apply MX, Ic, Hx. }
  destruct ch as [|o r].
  - cbn. split; [congruence|]. split; [exact LA|]. split; [exact IN|]. split; [apply DD; auto|]. split; [exact I|].
    split; [exact SU|]. intros q t r E Hq. injection E as <- <-. apply (PT q a []); auto. cbn in LA. subst m. apply MI; auto.
  - rewrite hull_pop_cons. unfold Rleb.
    assert (Hoa : lexlt o a /\ descending (o :: r)).
    { inversion D as [|? ? D1 F1]; subst. inversion F1; subst; auto. }
    destruct Hoa as [Hoa D1].
    assert (Hap : lexlt a p) by (apply MX, IN; left; reflexivity).
    destruct (Rle_dec (cr o a p) 0) as [C|C].
    + apply IH; auto.
      * apply turning_tl in T; exact T.
      * intros x y q Hxy. apply SU. rewrite pairs_cons. right; exact Hxy.
      * congruence.
      * intros x Hx. apply IN. right; exact Hx.
      * intros q t r' E Hq Hoq. injection E as <- <-.
        assert (Ca : cr o a q >= 0) by (apply SU; auto; rewrite pairs_cons; left; reflexivity).
        destruct (lex_total q a) as [L|L].
        { apply (pop_before o a p q); auto. }
        { assert (lexle a q) by (destruct L as [->|L]; [left|right]; auto).
          apply (pop_after o a p q); auto. apply (PT q a (o :: r)); auto. }
    + split; [congruence|]. split; [exact LA|]. split; [exact IN|]. split; [apply DD; auto|].
      split; [cbn [turning]; split; [lra|exact T]|]. split; [exact SU|].
      intros q t r' E Hq. injection E as <- <-.
      destruct (lex_total q a) as [L|L].
      * apply (stop_before o a p q); auto; [lra|]. apply SU; auto. rewrite pairs_cons. left; reflexivity.
      * apply (PT q a (o :: r)); auto. destruct L as [->|L]; [left|right]; auto.
Qed.

(** The chain after processing the ascending list m :: l. *)
Definition ascending (l : list RR) : Prop := StronglySorted lexlt l.
Definition good_chain (l ch : list RR) : Prop :=
  ch <> [] /\ last ch (0, 0) = hd (0, 0) l /\ hd (0, 0) ch = last l (0, 0) /\ incl ch l /\
  descending ch /\ turning ch /\ supports l ch.

Lemma hull_chain_app : forall l p, hull_chain (A := RA) (l ++ [p]) = p :: hull_pop (A := RA) (hull_chain (A := RA) l) p.
Proof. intros. unfold hull_chain. rewrite fold_left_app. reflexivity. Qed.

Lemma last_indep : forall X (l : list X) d d', l <> [] -> last l d = last l d'.
Proof. induction l as [|x [|y l] IH]; intros d d' H; [congruence|reflexivity|]. cbn [last]. apply IH. congruence. Qed.

Lemma ascending_app : forall l p, ascending (l ++ [p]) -> ascending l /\ forall q, In q l -> lexlt q p.
Proof.
  induction l as [|x l IH]; intros p H; [split; [constructor|intros q []]|].
  inversion H as [|? ? H1 F1]; subst. destruct (IH p H1) as [A B]. rewrite Forall_forall in F1. split.
  - constructor; auto. apply Forall_forall. intros y Hy. apply F1. apply in_or_app; auto.
  - intros q [<-|Hq]; [apply F1, in_or_app; right; left; reflexivity|auto].
Qed.
Lemma ascending_min : forall x l q, ascending (x :: l) -> In q (x :: l) -> lexle x q.
Proof. intros x l q H [<-|Hq]; [left; reflexivity|right]. inversion H as [|? ? H1 F1]; subst. rewrite Forall_forall in F1. auto. Qed.

Lemma ascending_max : forall (l : list RR) (q t : RR), ascending l -> t = last l (0, 0) -> In q l -> lexle q t.
Proof.
  intros l q t A -> Hq. destruct (exists_last (l := l)) as (L0 & z & ->); [destruct l; [destruct Hq|congruence]|].
  rewrite last_last. apply in_app_or in Hq. destruct Hq as [Hq|[->|[]]]; [right|left; reflexivity]. apply (proj2 (ascending_app L0 z A)); auto.
Qed.

Lemma chain_good : forall l, l <> [] -> ascending l -> good_chain l (hull_chain (A := RA) l).
Proof.
  intros l. induction l as [|p l IH] using rev_ind; intros NE AS; [congruence|].
  destruct (ascending_app l p AS) as [A1 A2]. rewrite hull_chain_app.
  destruct l as [|m l'].
  { cbn. unfold good_chain. cbn. split; [congruence|]. split; auto. split; auto. split; [intros x; cbn; auto|].
    split; [repeat constructor|]. split; [exact I|]. intros a o q []. }
  destruct (IH ltac:(congruence) A1) as (N & LA & HD & IN & D & T & SU).
  set (ch := hull_chain (A := RA) (m :: l')) in *. set (L := m :: l') in *.
  destruct (pop_spec ch p L m D T SU N IN) as (N' & LA' & IN' & D' & T' & SU' & PT').
  - etransitivity; [apply (last_indep _ ch p (0,0)); exact N | exact LA].
  - intros q Hq. apply (ascending_min m l' q); auto.
  - exact A2.
  - intros q t r E Hq Htq. rewrite E in HD. cbn in HD.
    assert (QL : lexle q t).
    { apply (ascending_max L q t); auto. }
    rewrite (lexle_antisym q t QL Htq). unfold cr. nra.
  - set (ch' := hull_pop (A := RA) ch p) in *. unfold good_chain.
    split; [congruence|]. split.
    { etransitivity; [apply (last_indep _ (p :: ch') (0,0) p); congruence|]. destruct ch' as [|c ch'']; [congruence|]. exact LA'. }
    split; [rewrite last_last; reflexivity|].
    split. { intros x [<-|Hx]; apply in_or_app; [right; left; reflexivity|left; apply IN'; exact Hx]. }
    split; [exact D'|]. split; [exact T'|].
    intros a o q Hao Hq. destruct ch' as [|c ch'']; [congruence|]. rewrite pairs_cons in Hao. destruct Hao as [E|Hao].
    + injection E as <- <-. apply in_app_or in Hq. destruct Hq as [Hq|[<-|[]]]; [apply (PT' q c ch''); auto|]. unfold cr; nra.
    + apply in_app_or in Hq. destruct Hq as [Hq|Hq]; [apply SU'; auto|].
      apply (support_new (c :: ch'') p D' T' a o q Hao Hq).
Qed.

(** ** The upper chain: point reflection *)
Definition neg (a : RR) : RR := (- fst a, - snd a).
Lemma neg_neg : forall a, neg (neg a) = a.
Proof. intros [x y]; unfold neg; cbn; f_equal; lra. Qed.
Lemma cr_neg : forall o a b, cr (neg o) (neg a) (neg b) = cr o a b.
Proof. intros; unfold cr, neg; cbn; ring. Qed.
Lemma lexlt_neg : forall a b, lexlt (neg a) (neg b) <-> lexlt b a.
Proof. intros; unfold lexlt, neg; cbn. split; intros [?|[? ?]]; (left; lra) || (right; split; lra). Qed.
Lemma hull_pop_neg : forall ch p, hull_pop (A := RA) (map neg ch) (neg p) = map neg (hull_pop (A := RA) ch p).
Proof.
  induction ch as [|a ch IH]; intros p; [reflexivity|]. destruct ch as [|o r]; [reflexivity|].
  cbn [map] in *. rewrite !hull_pop_cons, cr_neg. destruct (Rleb (cr o a p) 0); [apply IH|reflexivity].
Qed.
Lemma hull_chain_neg : forall l, hull_chain (A := RA) (map neg l) = map neg (hull_chain (A := RA) l).
Proof.
  induction l as [|p l IH] using rev_ind; [reflexivity|].
  rewrite map_app. cbn [map]. rewrite !hull_chain_app, IH, hull_pop_neg. reflexivity.
Qed.
Lemma ascending_rev_neg : forall l, ascending l -> ascending (map neg (rev l)).
Proof.
  induction l as [|x l IH]; intros H; [constructor|]. inversion H as [|? ? H1 F1]; subst. rewrite Forall_forall in F1.
  cbn [rev]. rewrite map_app. cbn [map]. specialize (IH H1).
  assert (G : forall m, ascending m -> (forall y, In y m -> lexlt y (neg x)) -> ascending (m ++ [neg x])).
  { clear. induction m as [|y m IH]; intros A B; [repeat constructor|]. inversion A as [|? ? A1 F1]; subst. cbn [app]. constructor.
    - apply IH; auto. intros; apply B; right; auto.
    - apply Forall_forall. intros z Hz. apply in_app_or in Hz. destruct Hz as [Hz|[<-|[]]]; [rewrite Forall_forall in F1; auto|apply B; left; reflexivity]. }
  apply G; auto. intros y Hy. apply in_map_iff in Hy. destruct Hy as (z & <- & Hz). apply lexlt_neg. apply F1. apply in_rev; auto.
Qed.

Lemma turning_spec : forall ch, turning ch -> descending ch ->
  forall a b c, In (b, a) (pairs ch) -> In (c, b) (pairs ch) -> cr a b c > 0.
Proof.
  induction ch as [|p ch IH]; intros T D a b c H1 H2; [destruct H1|].
  destruct ch as [|x ch]; [destruct H1|]. rewrite pairs_cons in H1, H2.
  inversion D as [|? ? D1 F1]; subst. rewrite Forall_forall in F1.
  assert (LE : forall y z, In (y, z) (pairs (x :: ch)) -> In y (x :: ch) /\ In z (x :: ch)).
  { clear. generalize (x :: ch) as l. induction l as [|u l IHl]; intros y z H; [destruct H|]. destruct l as [|v l]; [destruct H|].
    rewrite pairs_cons in H. destruct H as [E|H]; [injection E as <- <-; cbn; auto|]. apply IHl in H. destruct H; split; right; auto. }
  destruct H2 as [E2|H2].
  - injection E2 as Ec Eb. subst c b. destruct H1 as [E1|H1].
    + injection E1 as Ep Ea. exfalso. apply (lexlt_irrefl p). rewrite Ep at 1. apply F1. left; reflexivity.
    + destruct ch as [|o r]; [destruct H1|]. rewrite pairs_cons in H1. destruct H1 as [E1|H1].
      * injection E1 as Ea. subst a. cbn in T. tauto.
      * exfalso. assert (In x (o :: r)).
        { clear - H1. revert H1. generalize (o :: r) as l. induction l as [|u l IHl]; intros H; [destruct H|]. destruct l as [|v l]; [destruct H|].
          rewrite pairs_cons in H. destruct H as [E|H]; [injection E as -> ->; cbn; auto|]. right; apply IHl; auto. }
        inversion D1 as [|? ? D2 F2]; subst. rewrite Forall_forall in F2. apply (lexlt_irrefl x). apply F2. auto.
  - destruct H1 as [E1|H1].
    + injection E1 as Eb Ea. subst b a. exfalso. apply LE in H2. destruct H2 as [_ H2]. apply (lexlt_irrefl p), F1, H2.
    + apply IH; auto. apply turning_tl in T; exact T.
Qed.
Lemma descending_pairs : forall ch, descending ch -> forall a b, In (b, a) (pairs ch) -> lexlt a b.
Proof.
  induction ch as [|p ch IH]; intros D a b H; [destruct H|]. destruct ch as [|x ch]; [destruct H|].
  inversion D as [|? ? D1 F1]; subst. rewrite Forall_forall in F1. rewrite pairs_cons in H. destruct H as [E|H].
  - injection E as <- <-. apply F1. left; reflexivity.
  - apply IH; auto.
Qed.

(** ** The closed hull *)
Lemma pairs_mid : forall X (a : list X) x b, pairs (a ++ x :: b) = pairs (a ++ [x]) ++ pairs (x :: b).
Proof.
  induction a as [|y a IH]; intros x b; [reflexivity|].
  destruct a as [|z a]; [reflexivity|]. cbn [app] in *. rewrite !pairs_cons, IH. reflexivity.
Qed.

(** What the two chains are, in terms of the ascending list s = m ... M. *)
Lemma hull_parts : forall s, ascending s -> (2 <= length s)%nat ->
  let m := hd (0, 0) s in let M := last s (0, 0) in
  exists L U, hull_chain (A := RA) s = M :: L /\ hull_chain (A := RA) (rev s) = m :: U /\
    L <> [] /\ U <> [] /\ last L (0, 0) = m /\ last U (0, 0) = M /\ lexlt m M /\
    incl (M :: L) s /\ incl (m :: U) s /\
    descending (M :: L) /\ turning (M :: L) /\ supports s (M :: L) /\
    descending (map neg (m :: U)) /\ turning (map neg (m :: U)) /\
    (forall a b q, In (b, a) (pairs (m :: U)) -> In q s -> cr a b q >= 0).
Proof.
  intros s AS LEN m M.
  assert (NE : s <> []) by (destruct s; cbn in LEN; [lia|congruence]).
  assert (mM : lexlt m M).
  { destruct s as [|x s']; [congruence|]. destruct s' as [|y s'']; [cbn in LEN; lia|]. unfold m, M. cbn [hd].
    inversion AS as [|? ? A1 F1]; subst. rewrite Forall_forall in F1. apply F1.
    change (last (x :: y :: s'') (0, 0)) with (last (y :: s'') (0, 0)).
    destruct (exists_last (l := y :: s'') ltac:(congruence)) as (z & w & ->). rewrite last_last. apply in_or_app; right; left; reflexivity. }
  destruct (chain_good s NE AS) as (N1 & LA1 & HD1 & IN1 & D1 & T1 & S1).
  pose proof (ascending_rev_neg s AS) as AS2.
  assert (NE2 : map neg (rev s) <> []).
  { intros E. apply map_eq_nil in E. apply NE. rewrite <- (rev_involutive s), E. reflexivity. }
  destruct (chain_good _ NE2 AS2) as (N2 & LA2 & HD2 & IN2 & D2 & T2 & S2).
  rewrite hull_chain_neg in N2, LA2, HD2, IN2, D2, T2, S2.
  assert (HM : hd (0, 0) (map neg (rev s)) = neg M).
  { unfold M. destruct (exists_last (l := s) NE) as (z & w & ->). rewrite rev_app_distr, last_last. reflexivity. }
  assert (Hm : last (map neg (rev s)) (0, 0) = neg m).
  { unfold m. destruct s as [|x s']; [congruence|]. cbn [rev hd]. rewrite map_app. cbn [map]. apply last_last. }
  assert (X1 : exists c : list RR, hull_chain (A := RA) s = c) by eauto. destruct X1 as [c1 E1]. rewrite E1 in *.
  assert (X2 : exists c : list RR, hull_chain (A := RA) (rev s) = c) by eauto. destruct X2 as [c2 E2]. rewrite E2 in *.
  destruct c1 as [|M' L]; [congruence|]. cbn [hd] in HD1. fold M in HD1. subst M'.
  destruct c2 as [|m' U]; [cbn in N2; congruence|]. cbn [map hd] in HD2.
  assert (m' = m) as -> by (rewrite <- (neg_neg m'), <- (neg_neg m); f_equal; etransitivity; [exact HD2|exact Hm]).
  assert (LN : L <> []). { intros ->. cbn in LA1. apply (lexlt_irrefl m). unfold m at 2. rewrite <- LA1. exact mM. }
  assert (UN : U <> []). { intros ->. cbn in LA2. rewrite HM in LA2. apply (lexlt_irrefl m). assert (m = M) as X by (rewrite <- (neg_neg m), <- (neg_neg M); f_equal; exact LA2). rewrite X at 2. exact mM. }
  exists L, U. split; [reflexivity|]. split; [reflexivity|]. split; [exact LN|]. split; [exact UN|].
  split. { destruct L; [congruence|]. exact LA1. }
  split. { rewrite HM in LA2. destruct (exists_last (l := U) UN) as (z & w & EU). rewrite EU in LA2 |- *.
           rewrite last_last. cbn [map] in LA2. rewrite map_app in LA2. cbn [map] in LA2. rewrite app_comm_cons, last_last in LA2.
           rewrite <- (neg_neg w), <- (neg_neg M). f_equal. exact LA2. }
  split; [exact mM|]. split; [exact IN1|]. split.
  { intros x Hx. apply in_rev. assert (In (neg x) (map neg (rev s))) as Y by (apply IN2, in_map, Hx).
    apply in_map_iff in Y. destruct Y as (y & Ey & Hy). rewrite <- (neg_neg x), <- Ey, neg_neg. exact Hy. }
  split; [exact D1|]. split; [exact T1|]. split; [exact S1|]. split; [exact D2|]. split; [exact T2|].
  intros a b q Hab Hq. rewrite <- cr_neg. apply S2.
  - assert (PM : forall l : list RR, pairs (map neg l) = map (fun e => (neg (fst e), neg (snd e))) (pairs l)).
    { clear. induction l as [|x [|y l] IH]; [reflexivity|reflexivity|]. cbn [map] in *. rewrite !pairs_cons. cbn [map fst snd]. rewrite IH. reflexivity. }
    change (In (neg b, neg a) (pairs (map neg (m :: U)))). rewrite PM. apply in_map_iff. exists (b, a). auto.
  - apply in_map. apply -> in_rev. exact Hq.
Qed.

Lemma pair_ltb_iff : forall a b : RR, pair_ltb (A := RA) a b = true <-> lexlt a b.
Proof.
  intros a b. unfold pair_ltb, lexlt. ra. unfold Reqb, Rltb.
  destruct (Req_EM_T (fst a) (fst b)); repeat destruct (Rlt_dec _ _); split; intros H; try discriminate; try lra; auto.
Qed.
Lemma pair_eqb_iff : forall a b : RR, pair_eqb (A := RA) a b = true <-> a = b.
Proof.
  intros [a1 a2] [b1 b2]. unfold pair_eqb. cbn. rewrite andb_true_iff, !Reqb_true. split; [intros [-> ->]; auto|intros [= -> ->]; auto].
Qed.
Lemma insert_ascending : forall l x, ascending l -> ~ In x l -> ascending (insert_sorted (pair_ltb (A := RA)) x l).
Proof.
  induction l as [|y l IH]; intros x A N; [repeat constructor|]. cbn [insert_sorted].
  inversion A as [|? ? A1 F1]; subst. rewrite Forall_forall in F1.
  destruct (pair_ltb (A := RA) y x) eqn:E.
  - apply pair_ltb_iff in E. constructor; [apply IH; auto; intros H; apply N; right; auto|].
    apply Forall_forall. intros z Hz. apply (Permutation_in _ (insert_sorted_perm _ _ x l)) in Hz. destruct Hz as [<-|Hz]; auto.
  - assert (lexlt x y).
    { destruct (lex_total x y) as [H|[->|H]]; auto; [exfalso; apply N; left; auto|]. apply pair_ltb_iff in H. congruence. }
    constructor; auto. apply Forall_forall. intros z [<-|Hz]; auto. eapply lexlt_trans; eauto.
Qed.
Lemma sort_ascending : forall l, NoDup l -> ascending (sort_by (pair_ltb (A := RA)) l).
Proof.
  induction l as [|x l IH]; intros N; [constructor|]. inversion N; subst. cbn [sort_by]. apply insert_ascending; auto.
  intros H. apply (Permutation_in _ (sort_by_perm _ (pair_ltb (A := RA)) l)) in H. contradiction.
Qed.
Lemma hull_sorted_spec : forall ps : list RR, ascending (hull_sorted (A := RA) ps) /\ forall p, In p (hull_sorted (A := RA) ps) <-> In p ps.
Proof.
  intros ps. unfold hull_sorted. split.
  - apply sort_ascending. apply (dedup_NoDup _ _ pair_eqb_iff).
  - intros p. split; intros H.
    + apply (Permutation_in _ (sort_by_perm _ _ _)) in H. apply (proj1 (dedup_In _ _ pair_eqb_iff _ _) H).
    + apply (Permutation_in _ (Permutation_sym (sort_by_perm _ _ _))). apply (dedup_In _ _ pair_eqb_iff). exact H.
Qed.
Lemma ascending_unique : forall l l', ascending l -> ascending l' -> (forall p, In p l <-> In p l') -> l = l'.
Proof.
  induction l as [|x l IH]; intros l' A A' E.
  - destruct l' as [|y l']; auto. exfalso. apply (proj2 (E y)). left; reflexivity.
  - destruct l' as [|y l']; [exfalso; apply (proj1 (E x)); left; reflexivity|].
    assert (x = y) as <-.
    { apply lexle_antisym; [apply (ascending_min x l); auto; apply E; left; reflexivity | apply (ascending_min y l'); auto; apply E; left; reflexivity]. }
    f_equal. inversion A as [|? ? A1 F1]; subst. inversion A' as [|? ? A1' F1']; subst. rewrite Forall_forall in F1, F1'.
    apply IH; auto. intros p. split; intros H.
    + destruct (proj1 (E p) (or_intror H)) as [->|]; auto. exfalso. apply (lexlt_irrefl p). apply F1; auto.
    + destruct (proj2 (E p) (or_intror H)) as [->|]; auto. exfalso. apply (lexlt_irrefl p). apply F1'; auto.
Qed.

Lemma pairs_succ : forall X (l : list X) x q, In q l -> exists n, In (n, q) (pairs (x :: l)).
Proof.
  induction l as [|y l IH]; intros x q H; [destruct H|]. rewrite pairs_cons. destruct H as [->|H].
  - exists x. left; reflexivity.
  - destruct (IH y q H) as [n Hn]. exists n. right; exact Hn.
Qed.
Lemma pairs_pred : forall X (l : list X) d q, In q l -> q <> last l d -> exists o, In (q, o) (pairs l).
Proof.
  induction l as [|y l IH]; intros d q H N; [destruct H|]. destruct l as [|z l].
  - destruct H as [->|[]]. cbn in N. congruence.
  - rewrite pairs_cons. destruct H as [->|H]; [exists z; left; reflexivity|].
    destruct (IH d q H N) as [o Ho]. exists o. right; exact Ho.
Qed.
Lemma In_pairs2 : forall X (l : list X) a b, In (a, b) (pairs l) -> In a l /\ In b l.
Proof.
  induction l as [|x l IH]; intros a b H; [destruct H|]. destruct l as [|y l]; [destruct H|]. rewrite pairs_cons in H.
  destruct H as [E|H]; [injection E as -> ->; cbn; auto|]. apply IH in H. destruct H; split; right; auto.
Qed.

Lemma line_collinear : forall e1 e2 (m p q r : RR), pos e1 e2 ->
  e1 * (snd p - snd m) - e2 * (fst p - fst m) = 0 -> e1 * (snd q - snd m) - e2 * (fst q - fst m) = 0 ->
  e1 * (snd r - snd m) - e2 * (fst r - fst m) = 0 -> cr p q r = 0.
Proof.
  intros e1 e2 m p q r E P Q R. unfold cr.
  assert (X : e1 * (snd q - snd p) - e2 * (fst q - fst p) = 0) by lra.
  assert (Y : e1 * (snd r - snd p) - e2 * (fst r - fst p) = 0) by lra.
  set (u1 := fst q - fst p) in *. set (u2 := snd q - snd p) in *. set (v1 := fst r - fst p) in *. set (v2 := snd r - snd p) in *.
  destruct E as [E|[-> E]].
  - apply (Rmult_eq_reg_l e1); [|lra]. rewrite Rmult_0_r.
    replace (e1 * (u1 * v2 - u2 * v1)) with (u1 * (e1 * v2 - e2 * v1) - v1 * (e1 * u2 - e2 * u1)) by ring. rewrite X, Y. ring.
  - assert (u1 = 0) by nra. assert (v1 = 0) by nra. rewrite H, H0. ring.
Qed.

(** In the collinear case every cross product of three given points is 0. *)
Definition all_collinear (ps : list RR) : Prop := forall p q r, In p ps -> In q ps -> In r ps -> cr p q r = 0.

Lemma hull_nodes_spec : forall ps : list RR, (2 <= length (hull_sorted (A := RA) ps))%nat ->
  let vs : list RR := hull_nodes (A := RA) ps in
  (exists v vs', vs = v :: vs' /\ forall p, In p ps -> lexle v p) /\
  NoDup vs /\ incl vs ps /\
  (forall a b q, In (a, b) (cycle_edges vs) -> In q ps -> cr a b q >= 0) /\
  (all_collinear ps -> length vs = 2%nat) /\
  (~ all_collinear ps -> (3 <= length vs)%nat /\
     forall a b c, In (a, b) (cycle_edges vs) -> In (b, c) (cycle_edges vs) -> cr a b c > 0).
Proof.
  intros ps LEN vs. destruct (hull_sorted_spec ps) as [AS SE]. set (s := hull_sorted (A := RA) ps : list RR) in *.
  destruct (hull_parts s AS LEN) as (L & U & EL & EU & NL & NU & LL & LU & mM & IL & IU & D1 & T1 & S1 & D2 & T2 & S2).
  set (m := hd (0, 0) s) in *. set (M := last s (0, 0)) in *.
  assert (EV : vs = rev L ++ rev U).
  { change vs with (rev (tl (hull_chain (A := RA) s : list RR)) ++ rev (tl (hull_chain (A := RA) (rev s) : list RR))).
    transitivity (rev (tl (M :: L)) ++ rev (tl (m :: U))); [|reflexivity].
    apply f_equal2; apply f_equal, f_equal; assumption. }
  destruct (exists_last (l := L) NL) as (L0 & m' & EL0). rewrite EL0, last_last in LL. subst m'.
  destruct (exists_last (l := U) NU) as (U0 & M' & EU0). rewrite EU0, last_last in LU. subst M'.
  assert (EV2 : vs = m :: rev L0 ++ M :: rev U0).
  { rewrite EV, EL0, EU0, !rev_app_distr. reflexivity. }
  assert (CE : cycle_edges vs = pairs (rev (M :: L)) ++ pairs (rev (m :: U))).
  { rewrite EV2, cycle_edges_pairs. rewrite EL0, EU0. cbn [rev]. rewrite !rev_app_distr. cbn [rev app].
    rewrite <- app_assoc. cbn [app]. rewrite app_comm_cons, pairs_mid. reflexivity. }
  assert (CE2 : forall a b, In (a, b) (cycle_edges vs) <-> In (b, a) (pairs (M :: L)) \/ In (b, a) (pairs (m :: U))).
  { intros a b. rewrite CE, in_app_iff, !pairs_rev, <- !in_rev, !in_map_iff. split.
    - intros [([x y] & E & H)|([x y] & E & H)]; cbn in E; injection E as -> ->; auto.
    - intros [H|H]; [left|right]; exists (b, a); auto. }
  assert (NG : forall a b, In (b, a) (pairs (m :: U)) -> In (neg b, neg a) (pairs (map neg (m :: U)))).
  { intros a b. generalize (m :: U) as l. clear. induction l as [|x [|y l] IH]; intros H; [destruct H|destruct H|].
    cbn [map] in *. rewrite pairs_cons in *. destruct H as [E|H]; [left; injection E as -> ->; reflexivity|right; auto]. }
  assert (O1 : forall a b, In (b, a) (pairs (M :: L)) -> lexlt a b) by (apply descending_pairs; exact D1).
  assert (O2 : forall a b, In (b, a) (pairs (m :: U)) -> lexlt b a).
  { intros a b H. apply NG in H. apply (descending_pairs _ D2) in H. apply (proj1 (lexlt_neg a b)) in H. exact H. }
  assert (SUP : forall a b q, In (a, b) (cycle_edges vs) -> In q ps -> cr a b q >= 0).
  { intros a b q H Hq. apply CE2 in H. apply SE in Hq. destruct H as [H|H]; [apply S1|apply S2]; auto. }
  assert (ND1 : NoDup (M :: L)).
  { clear - D1. induction D1 as [|x l D IH F]; constructor; auto. intros H. rewrite Forall_forall in F. apply (lexlt_irrefl x), F, H. }
  assert (ND2 : NoDup (m :: U)).
  { apply (NoDup_map_inv neg). clear - D2. induction D2 as [|x l D IH F]; constructor; auto. intros H. rewrite Forall_forall in F. apply (lexlt_irrefl x), F, H. }
  assert (DISJ : forall q, In q L -> In q U -> False).
  { intros q HL HU.
    assert (qM : q <> M) by (intros ->; inversion ND1; contradiction).
    assert (qm : q <> m) by (intros ->; inversion ND2; contradiction).
    destruct (pairs_succ _ L M q HL) as [n Hn].
    destruct (pairs_pred _ (M :: L) (0, 0) q (or_intror HL)) as [o Ho].
    { rewrite EL0. rewrite app_comm_cons, last_last. exact qm. }
    destruct (pairs_pred _ (m :: U) (0, 0) q (or_intror HU)) as [n' Hn'].
    { rewrite EU0. rewrite app_comm_cons, last_last. exact qM. }
    pose proof (turning_spec _ T1 D1 o q n Ho Hn) as TT.
    assert (X1 : cr n' q o >= 0) by (apply S2; auto; apply IL; apply (In_pairs2 _ _ _ _ Ho)).
    assert (X2 : cr n' q n >= 0) by (apply S2; auto; apply IL; apply (In_pairs2 _ _ _ _ Hn)).
    pose proof (lexlt_pos _ _ (O1 _ _ Ho)) as P1. pose proof (lexlt_pos _ _ (O1 _ _ Hn)) as P2. pose proof (lexlt_pos _ _ (O2 _ _ Hn')) as P3.
    assert (Y : (fst n - fst q) * (snd q - snd o) - (snd n - snd q) * (fst q - fst o) >= 0).
    { apply (half_weak _ _ (fst n' - fst q) (snd n' - snd q)); auto; [right; exact P1| |]; unfold cr in X1, X2; nra. }
    unfold cr in TT. nra. }
  assert (NDV : NoDup vs).
  { rewrite EV. assert (H2 := proj2 (proj1 (NoDup_cons_iff _ _) ND1)). assert (H4 := proj2 (proj1 (NoDup_cons_iff _ _) ND2)). clear - H2 H4 DISJ. apply NoDup_rev in H2, H4.
    assert (DJ : forall q, In q (rev L) -> In q (rev U) -> False) by (intros q A B; apply in_rev in A, B; eauto). clear DISJ.
    revert H2 DJ. generalize (rev L) as l. induction l as [|x l IH]; intros N DJ; [exact H4|]. inversion N; subst. cbn [app]. constructor.
    - intros H. apply in_app_or in H. destruct H; [contradiction|]. apply (DJ x); auto. left; reflexivity.
    - apply IH; auto. intros q A B. apply (DJ q); auto. right; auto. }
  split. { exists m, (rev L0 ++ M :: rev U0). split; [exact EV2|]. intros p Hp. apply SE in Hp.
           unfold m. destruct s as [|x s']; [destruct Hp|]. apply (ascending_min x s'); auto. }
  split; [exact NDV|]. split.
  { intros x Hx. apply SE. rewrite EV in Hx. apply in_app_or in Hx. destruct Hx as [Hx|Hx]; apply in_rev in Hx; [apply IL|apply IU]; right; exact Hx. }
  split; [exact SUP|]. split.
  - intros COL. rewrite EV2. cbn [length]. rewrite app_length. cbn [length]. rewrite !rev_length.
    assert (length L0 = 0%nat).
    { destruct L0 as [|a L0]; auto. exfalso. rewrite EL0 in T1, IL. cbn [app] in T1, IL.
      assert (exists o r, L0 ++ [m] = o :: r) as (o & r & E) by (destruct L0; cbn; eauto).
      rewrite E in T1, IL. cbn [turning] in T1. destruct T1 as [T1 _].
      rewrite COL in T1; [lra| | |]; apply SE, IL; cbn; auto. }
    assert (length U0 = 0%nat).
    { destruct U0 as [|a U0]; auto. exfalso. rewrite EU0 in T2, IU. cbn [app] in T2, IU.
      assert (exists o r, U0 ++ [M] = o :: r) as (o & r & E) by (destruct U0; cbn; eauto).
      rewrite E in T2, IU. cbn [map turning] in T2. destruct T2 as [T2 _]. rewrite cr_neg in T2.
      rewrite COL in T2; [lra| | |]; apply SE, IU; cbn; auto. }
    lia.
  - intros NC. split.
    + rewrite EV2. cbn [length]. rewrite app_length. cbn [length]. rewrite !rev_length.
      destruct L0 as [|a L0]; [|cbn; lia]. destruct U0 as [|a U0]; [|cbn; lia]. exfalso. apply NC.
      cbn in EL0, EU0. subst L U.
      assert (Z : forall q, In q ps -> cr m M q = 0).
      { intros q Hq. apply SE in Hq. pose proof (S1 M m q (or_introl eq_refl) Hq). pose proof (S2 M m q (or_introl eq_refl) Hq).
        unfold cr in *. nra. }
      intros p q r Hp Hq Hr. apply (line_collinear (fst M - fst m) (snd M - snd m) m); [apply lexlt_pos; exact mM| | |]; apply Z; auto.
    + intros a b c H1 H2. apply CE2 in H1, H2.
      assert (COLL : forall e1 e2 z, pos e1 e2 -> (forall q, In q ps -> e1 * (snd q - snd z) - e2 * (fst q - fst z) = 0) -> False).
      { intros e1 e2 z PE Z. apply NC. intros p q r Hp Hq Hr. apply (line_collinear e1 e2 z); auto. }
      assert (INps : forall x, In x s -> In x ps) by (intros; apply SE; auto).
      destruct H1 as [H1|H1], H2 as [H2|H2].
      * apply (turning_spec _ T1 D1); auto.
      * (* lower, then upper: b = M *)
        assert (b = M) as ->.
        { destruct (In_pairs2 _ _ _ _ H1) as [Hb _]. destruct (In_pairs2 _ _ _ _ H2) as [_ Hb2].
          destruct Hb as [<-|Hb]; auto. exfalso. destruct Hb2 as [<-|Hb2]; [|apply (DISJ b); auto].
          apply (lexlt_irrefl m). apply (lexle_lt_trans m a m); [|apply (O1 _ _ H1)].
          destruct (In_pairs2 _ _ _ _ H1) as [_ Ha]. apply IL in Ha.
          unfold m. destruct s as [|x s']; [destruct Ha|]. apply (ascending_min x s'); auto. }
        assert (Ha : In a s) by (apply IL; apply (In_pairs2 _ _ _ _ H1)).
        assert (Hc : In c s) by (apply IU; apply (In_pairs2 _ _ _ _ H2)).
        destruct (Rgt_dec (cr a M c) 0) as [G|G]; [exact G|]. exfalso.
        pose proof (S1 M a c H1 Hc) as G2. assert (G3 : cr a M c = 0) by lra.
        pose proof (lexlt_pos _ _ (O1 _ _ H1)) as P1. pose proof (lexlt_pos _ _ (O2 _ _ H2)) as P2.
        apply (COLL (fst M - fst a) (snd M - snd a) M P1). intros q Hq. apply SE in Hq.
        pose proof (S1 M a q H1 Hq) as Q1. pose proof (S2 M c q H2 Hq) as Q2.
        assert (W : nneg (fst M - fst q) (snd M - snd q)) by (apply lexle_nneg, (ascending_max s); auto).
        assert (Y : (fst M - fst a) * (snd M - snd q) - (snd M - snd a) * (fst M - fst q) >= 0).
        { apply (half_weak _ _ (fst M - fst c) (snd M - snd c)); auto; unfold cr in Q1, Q2, G3; nra. }
        unfold cr in Q1. nra.
      * (* upper, then lower: b = m *)
        assert (b = m) as ->.
        { destruct (In_pairs2 _ _ _ _ H1) as [Hb _]. destruct (In_pairs2 _ _ _ _ H2) as [_ Hb2].
          destruct Hb as [<-|Hb]; auto. exfalso. destruct Hb2 as [<-|Hb2]; [|apply (DISJ b); auto].
          apply (lexlt_irrefl M). apply (lexlt_le_trans M a M); [apply (O2 _ _ H1)|].
          destruct (In_pairs2 _ _ _ _ H1) as [_ Ha]. apply IU in Ha. apply (ascending_max s); auto. }
        assert (Ha : In a s) by (apply IU; apply (In_pairs2 _ _ _ _ H1)).
        assert (Hc : In c s) by (apply IL; apply (In_pairs2 _ _ _ _ H2)).
        destruct (Rgt_dec (cr a m c) 0) as [G|G]; [exact G|]. exfalso.
        pose proof (S2 a m c H1 Hc) as G2. assert (G3 : cr a m c = 0) by lra.
        pose proof (lexlt_pos _ _ (O2 _ _ H1)) as P1. pose proof (lexlt_pos _ _ (O1 _ _ H2)) as P2.
        apply (COLL (fst a - fst m) (snd a - snd m) m P1). intros q Hq. apply SE in Hq.
        pose proof (S2 a m q H1 Hq) as Q1. pose proof (S1 c m q H2 Hq) as Q2.
        assert (W : nneg (fst q - fst m) (snd q - snd m)).
        { apply lexle_nneg. unfold m. destruct s as [|x s']; [destruct Hq|]. apply (ascending_min x s'); auto. }
        assert (Y : (fst a - fst m) * (snd q - snd m) - (snd a - snd m) * (fst q - fst m) >= 0).
        { apply (half_weak _ _ (fst c - fst m) (snd c - snd m)); auto; unfold cr in Q1, Q2, G3; nra. }
        unfold cr in Q1. nra.
      * rewrite <- cr_neg. apply (turning_spec _ T2 D2); apply NG; auto.
Qed.

(** * The polygon returned *)
Definition P (p : RR) : pt RA := @mkpt RA (fst p) (snd p).
Definition Pr (p : RR) : pt RA := @mkpt RA (Rround8 (fst p)) (Rround8 (snd p)).

Lemma stored_P : forall p, stored (P p) -> Pr p = P p.
Proof. intros [x y] [(k & K) (j & J)]. unfold Pr, P. cbn [fst snd px py P] in *.
  rewrite !Rround8_id; [reflexivity| |]; [exists j | exists k]; [transitivity (IZR j / 10^8)|transitivity (IZR k / 10^8)]; auto; simpl; f_equal; ring. Qed.
Lemma P_inj : forall p q, P p = P q -> p = q.
Proof. intros [a b] [c d] E. injection E as -> ->. reflexivity. Qed.

Lemma from_nodes_eq : forall vs : list RR, polygon_from_nodes (A := RA) vs false = map (fun e => LineSegment (fst e) (snd e)) (pairs (map Pr vs)).
Proof.
  intros vs. unfold polygon_from_nodes.
  assert (E : map (fun '(x, y) => Point_new x y) vs = map Pr vs) by (apply map_ext; intros [x y]; reflexivity).
  rewrite E. apply map_ext. intros [a b]. reflexivity.
Qed.

Lemma iscontinuous_path : forall vs : list (pt RA), iscontinuous (map (fun e => LineSegment (fst e) (snd e)) (pairs vs)) = true.
Proof.
  intros vs. apply iscontinuous_iff. intros k s t Hs Ht. apply continuous_same. rewrite nth_error_map in Hs, Ht.
  destruct (nth_error (pairs vs) k) as [[a b]|] eqn:E1; [|discriminate]. injection Hs as <-.
  destruct (nth_error (pairs vs) (S k)) as [[c d]|] eqn:E2; [|discriminate]. injection Ht as <-. cbn.
  apply pairs_nth in E1, E2. intuition congruence.
Qed.

Lemma close_path : forall (v w : pt RA) (r : list (pt RA)),
  close (map (fun e => LineSegment (fst e) (snd e)) (pairs (v :: w :: r))) =
    if pt_eqb v (last (w :: r) v) then Ok (map (fun e => LineSegment (fst e) (snd e)) (pairs (v :: w :: r)))
    else Ok (cycle_poly (v :: w :: r)).
Proof.
  intros v w r. pose proof (iscontinuous_path (v :: w :: r)) as C.
  assert (CY : cycle_poly (v :: w :: r) = map (fun e => LineSegment (fst e) (snd e)) (pairs (v :: w :: r)) ++ [LineSegment (last (w :: r) v) v]).
  { unfold cycle_poly. rewrite cycle_edges_pairs. change (v :: (w :: r) ++ [v]) with ((v :: w :: r) ++ [v]).
    rewrite pairs_app1, map_app. reflexivity. }
  assert (LA : sj (last (map (fun e => LineSegment (fst e) (snd e)) (pairs (w :: r))) (LineSegment v w)) = last (w :: r) v).
  { clear. revert v w. induction r as [|x r IH]; intros v w; [reflexivity|].
    rewrite pairs_cons. cbn [map]. rewrite last_cons. rewrite (last_cons _ (x :: r)). cbn [fst snd]. apply IH. }
  rewrite pairs_cons in *. cbn [map fst snd] in *. rewrite CY. cbn [app].
  destruct (close_spec (LineSegment v w) (map (fun e => LineSegment (fst e) (snd e)) (pairs (w :: r)))) as (I & _ & C1 & C2 & _).
  rewrite C in I. cbn [si LineSegment andb] in I. rewrite LA in *. cbn [si LineSegment] in C2.
  destruct (pt_eqb v (last (w :: r) v)); [apply C1; exact I|]. rewrite C2 by exact I. reflexivity.
Qed.

(** Twice the area is the sum of the triangle areas seen from any point. *)
Lemma shoelace_orient : forall (p : pt RA) (vs : list (pt RA)),
  shoelace vs = fold_right Rplus 0 (map (fun e => orient (fst e) (snd e) p) (cycle_edges vs)).
Proof.
  intros p vs. unfold shoelace.
  pose proof (cycle_telescope _ (fun q : pt RA => px q * py p - py q * px p) vs) as T.
  assert (G : forall E : list (pt RA * pt RA), fold_right Rplus 0 (map (fun e => orient (fst e) (snd e) p) E) =
    fold_right Rplus 0 (map (fun e : pt RA * pt RA => px (fst e) * py (snd e) - px (snd e) * py (fst e) : R) E) +
    fold_right Rplus 0 (map (fun e : pt RA * pt RA => (px (snd e) * py p - py (snd e) * px p) - (px (fst e) * py p - py (fst e) * px p)) E)).
  { induction E as [|[a b] E IH]; cbn [map fold_right fst snd]; [lra|]. rewrite IH. unfold orient. rring. }
  rewrite G, T. symmetry. apply Rplus_0_r.
Qed.

Lemma few_distinct : forall ps : list RR, (length (hull_sorted (A := RA) ps) <= 1)%nat <-> ~ exists p q, In p ps /\ In q ps /\ p <> q.
Proof.
  intros ps. destruct (hull_sorted_spec ps) as [AS SE]. set (s := hull_sorted (A := RA) ps : list RR) in *. split.
  - intros L (p & q & Hp & Hq & N). apply SE in Hp, Hq. destruct s as [|x [|y s]]; [destruct Hp| |cbn in L; lia].
    destruct Hp as [<-|[]], Hq as [<-|[]]. congruence.
  - intros N. destruct s as [|x [|y s]]; cbn; try lia. exfalso. apply N. exists x, y.
    split; [apply SE; left; auto|]. split; [apply SE; right; left; auto|]. intros ->.
    inversion AS as [|? ? ? F]; subst. inversion F; subst. eapply lexlt_irrefl; eauto.
Qed.

(*@ C37_hull_few *)
(** C37: with fewer than two distinct points no polygon is returned (the code returns the sorted list
    of points). *)
Lemma hull_few : forall ps : list (R * R),
  convex_hull (A := RA) ps = Ok None <-> ~ exists p q, In p ps /\ In q ps /\ p <> q.
Proof.
  intros ps. rewrite <- few_distinct. unfold convex_hull.
  destruct (Nat.leb_spec (length (hull_sorted (A := RA) ps)) 1) as [L|L]; [tauto|].
  split; [|lia]. destruct (close _) as [r|e]; cbn; discriminate.
Qed.

(*@ C37_hull_set *)
(** C37: only the set of the points matters, not their order or repetition. *)
Lemma hull_set : forall ps qs : list (R * R), (forall p, In p ps <-> In p qs) ->
  convex_hull (A := RA) ps = convex_hull (A := RA) qs.
Proof.
  intros ps qs E. destruct (hull_sorted_spec ps) as [A1 S1]. destruct (hull_sorted_spec qs) as [A2 S2].
  assert (X : hull_sorted (A := RA) ps = hull_sorted (A := RA) qs).
  { apply ascending_unique; auto. intros p. rewrite S1, S2. apply E. }
  unfold convex_hull, hull_nodes. rewrite X. reflexivity.
Qed.

Lemma cr_orient : forall a b c, orient (P a) (P b) (P c) = cr a b c.
Proof. intros. unfold orient, cr, P. cbn [px py]. reflexivity. Qed.

Lemma cycle_edges_P : forall vs a b, In (a, b) (cycle_edges (map P vs)) -> exists a' b', a = P a' /\ b = P b' /\ In (a', b') (cycle_edges vs).
Proof.
  intros vs a b H. rewrite cycle_edges_map in H. apply in_map_iff in H. destruct H as ([a' b'] & E & H). injection E as <- <-. eauto.
Qed.

(*@ C37_hull_any *)
(** C37: any reals with two distinct points.  The returned polygon is the path through the hull
    vertices vs, each rounded to 8 decimals; it is closed by a last segment unless first and last
    vertex are == already. *)
Lemma hull_any : forall ps : list (R * R),
  let point (p : R * R) := @mkpt RA (fst p) (snd p) in
  let rounded (p : R * R) := @mkpt RA (Rround8 (fst p)) (Rround8 (snd p)) in
  (exists p q, In p ps /\ In q ps /\ p <> q) ->
  exists v vs l, convex_hull (A := RA) ps = Ok (Some l) /\
    (pt_eqb (rounded v) (last (map rounded vs) (rounded v)) = false -> l = cycle_poly (map rounded (v :: vs))) /\
    (pt_eqb (rounded v) (last (map rounded vs) (rounded v)) = true -> map si l = removelast (map rounded (v :: vs)) /\ map sj l = map rounded vs) /\
    NoDup (v :: vs) /\ incl (v :: vs) ps /\
    (forall p, In p ps -> fst v < fst p \/ (fst v = fst p /\ snd v <= snd p)) /\
    (forall a b p, In (a, b) (cycle_edges (v :: vs)) -> In p ps -> 0 <= orient (point a) (point b) (point p)) /\
    ((forall a b c, In a ps -> In b ps -> In c ps -> orient (point a) (point b) (point c) = 0) -> length (v :: vs) = 2%nat) /\
    (~ (forall a b c, In a ps -> In b ps -> In c ps -> orient (point a) (point b) (point c) = 0) ->
       (3 <= length (v :: vs))%nat /\
       forall a b c, In (a, b) (cycle_edges (v :: vs)) -> In (b, c) (cycle_edges (v :: vs)) -> 0 < orient (point a) (point b) (point c)).
Proof.
  intros ps point rounded TWO.
  assert (LEN : (2 <= length (hull_sorted (A := RA) ps))%nat).
  { destruct (Nat.le_gt_cases (length (hull_sorted (A := RA) ps)) 1) as [L|L]; [|lia]. apply few_distinct in L. contradiction. }
  destruct (hull_nodes_spec ps LEN) as ((v & vs & EV & MIN) & ND & INC & SUP & COL & NCOL).
  assert (CO : all_collinear ps <-> (forall a b c, In a ps -> In b ps -> In c ps -> orient (point a) (point b) (point c) = 0)).
  { unfold all_collinear. split; intros H a b c A B C; [rewrite <- (H a b c A B C)|rewrite <- (H a b c A B C)]; [apply cr_orient|symmetry; apply cr_orient]. }
  rewrite EV in *.
  assert (NV : vs <> []).
  { intros ->. destruct (Classical_Prop.classic (all_collinear ps)) as [D|D]; [apply COL in D; discriminate|]. apply NCOL in D. cbn in D. lia. }
  destruct vs as [|w r]; [congruence|].
  assert (CP := close_path (Pr v) (Pr w) (map Pr r)).
  change (Pr v :: Pr w :: map Pr r) with (map Pr (v :: w :: r)) in CP. rewrite <- from_nodes_eq in CP.
  exists v, (w :: r).
  assert (CH : convex_hull (A := RA) ps = (r0 <- close (polygon_from_nodes (A := RA) (v :: w :: r) false) ;; Ok (Some r0))).
  { unfold convex_hull. destruct (Nat.leb_spec (length (hull_sorted (A := RA) ps)) 1) as [L|L]; [lia|]. 
    change (hull_nodes (A := RA) ps) with (hull_nodes (A := RA) ps : list RR). rewrite EV. reflexivity. }
  rewrite CP in CH. change (map rounded (w :: r)) with (Pr w :: map Pr r). change (rounded v) with (Pr v).
  assert (REST : NoDup (v :: w :: r) /\ incl (v :: w :: r) ps /\
    (forall p, In p ps -> fst v < fst p \/ (fst v = fst p /\ snd v <= snd p)) /\
    (forall a b p, In (a, b) (cycle_edges (v :: w :: r)) -> In p ps -> 0 <= orient (point a) (point b) (point p)) /\
    ((forall a b c, In a ps -> In b ps -> In c ps -> orient (point a) (point b) (point c) = 0) -> length (v :: w :: r) = 2%nat) /\
    (~ (forall a b c, In a ps -> In b ps -> In c ps -> orient (point a) (point b) (point c) = 0) ->
       (3 <= length (v :: w :: r))%nat /\
       forall a b c, In (a, b) (cycle_edges (v :: w :: r)) -> In (b, c) (cycle_edges (v :: w :: r)) -> 0 < orient (point a) (point b) (point c))).
  { split; [exact ND|]. split; [exact INC|]. split.
    { intros p Hp. destruct (MIN p Hp) as [<-|[H|[H1 H2]]]; [right; lra|left; auto|right; lra]. }
    split. { intros a b p H1 H2. change (orient (point a) (point b) (point p)) with (cr a b p). apply Rge_le. auto. }
    rewrite <- CO. split; [exact COL|]. intros N. destruct (NCOL N) as [N1 N2]. split; [exact N1|]. intros a b c H1 H2. apply (N2 a b c H1 H2). }
  destruct (pt_eqb (Pr v) (last (Pr w :: map Pr r) (Pr v))) eqn:E; cbn [bind] in CH; eexists; (split; [exact CH|]);
   (split; [try discriminate; try reflexivity|]); (split; [try discriminate|exact REST]).
  intros _. rewrite from_nodes_eq. rewrite !map_map. cbn [si sj LineSegment].
  change (map rounded (v :: w :: r)) with (Pr v :: Pr w :: map Pr r). change (map Pr (v :: w :: r)) with (Pr v :: Pr w :: map Pr r).
  generalize (Pr v) (Pr w) (map Pr r). clear. intros a b l. revert a b. induction l as [|c l IH]; intros a b; [split; reflexivity|].
  rewrite pairs_cons. destruct (IH b c) as [I1 I2]. cbn [map fst snd]. rewrite I1, I2. split; reflexivity.
Qed.

(*@ C37_hull *)
(** C37: coordinates that are multiples of 1e-8, points identical or separated, not all the same.  The
    result is the closed, valid polygon through vs: input points without repetition, beginning with the
    lexicographically smallest one, every input point on or left of every edge.  Unless all points are
    collinear it is convex, counter-clockwise, of positive area and turns left strictly at every
    vertex.  Collinear points give the two end points there and back, which counts as clockwise. *)
Lemma hull_spec : forall ps : list (R * R),
  let pts : list (pt RA) := map (fun p => @mkpt RA (fst p) (snd p)) ps in
  let collinear := forall a b c, In a pts -> In b pts -> In c pts -> orient a b c = 0 in
  (forall p, In p pts -> stored p) -> separated pts -> (exists p q, In p pts /\ In q pts /\ p <> q) ->
  exists v vs, let hull := cycle_poly (v :: vs) in
    convex_hull (A := RA) ps = Ok (Some hull) /\
    NoDup (v :: vs) /\ incl (v :: vs) pts /\
    (forall p, In p pts -> px v < px p \/ (px v = px p /\ py v <= py p)) /\
    (forall a b p, In (a, b) (cycle_edges (v :: vs)) -> In p pts -> 0 <= orient a b p) /\
    isclosed hull = Ok true /\ poly_isvalid hull = Ok true /\
    (collinear -> length (v :: vs) = 2%nat /\ iscw hull = Ok true) /\
    (~ collinear -> (3 <= length (v :: vs))%nat /\ isconvex hull = Ok true /\ isccw hull = Ok true /\ 0 < shoelace (v :: vs) /\
       forall a b c, In (a, b) (cycle_edges (v :: vs)) -> In (b, c) (cycle_edges (v :: vs)) -> 0 < orient a b c).
Proof.
  intros ps pts collinear ST SEP TWO. change pts with (map P ps) in *.
  assert (TWO' : exists p q, In p ps /\ In q ps /\ p <> q).
  { destruct TWO as (p & q & Hp & Hq & N). apply in_map_iff in Hp, Hq. destruct Hp as (p' & <- & Hp), Hq as (q' & <- & Hq).
    exists p', q'. repeat split; auto. congruence. }
  destruct (hull_any ps TWO') as (v & vs & l & CH & L1 & _ & ND & INC & MIN & SUP & COL & NCOL).
  assert (ST' : forall p, In p (v :: vs) -> Pr p = P p) by (intros p Hp; apply stored_P, ST, in_map, INC, Hp).
  assert (ME : map Pr (v :: vs) = map P (v :: vs)) by (apply map_ext_in; exact ST').
  assert (CO : collinear <-> (forall a b c, In a ps -> In b ps -> In c ps -> orient (P a) (P b) (P c) = 0)).
  { unfold collinear. split; [intros H a b c A B C; apply H; apply in_map; auto|].
    intros H a b c A B C. apply in_map_iff in A, B, C. destruct A as (a' & <- & A), B as (b' & <- & B), C as (c' & <- & C). apply H; auto. }
  assert (NV : vs <> []).
  { intros ->. destruct (Classical_Prop.classic collinear) as [D|D]; [pose proof (COL (proj1 CO D)); discriminate|].
    rewrite CO in D. apply NCOL in D. cbn in D. lia. }
  assert (E : pt_eqb (Pr v) (last (map Pr vs) (Pr v)) = false).
  { destruct (pt_eqb (Pr v) (last (map Pr vs) (Pr v))) eqn:E; auto. exfalso.
    destruct (exists_last NV) as (vs' & u & ->). rewrite map_app in E. cbn [map] in E. rewrite last_last in E.
    assert (Hu : In u (v :: vs' ++ [u])) by (right; apply in_or_app; right; left; auto).
    rewrite !ST' in E by (auto; left; auto).
    apply (separated_eqb _ SEP) in E; try (apply in_map, INC; auto; left; auto).
    apply P_inj in E. subst u. inversion ND as [|? ? N _]; subst. apply N. apply in_or_app; right; left; auto. }
  apply L1 in E. change (map _ (v :: vs)) with (map Pr (v :: vs)) in E. rewrite ME in E. subst l.
  exists (P v), (map P vs). cbn zeta. change (P v :: map P vs) with (map P (v :: vs)).
  assert (INC' : incl (map P (v :: vs)) (map P ps)) by (apply incl_map; exact INC).
  assert (SUP' : forall a b p, In (a, b) (cycle_edges (map P (v :: vs))) -> In p (map P ps) -> 0 <= orient a b p).
  { intros a b p H Hp. apply cycle_edges_P in H. destruct H as (a' & b' & -> & -> & H). apply in_map_iff in Hp. destruct Hp as (p' & <- & Hp). apply SUP; auto. }
  assert (SEP' : separated (map P (v :: vs))) by (intros p q Hp Hq; apply SEP; auto).
  assert (NDP : NoDup (map P (v :: vs))) by (apply FinFun.Injective_map_NoDup; auto; intros p q; apply P_inj).
  assert (VAL : poly_isvalid (cycle_poly (map P (v :: vs))) = Ok true).
  { apply convex_valid; auto. cbn; discriminate. }
  split; [exact CH|]. split; [exact NDP|]. split; [exact INC'|]. split.
  { intros p Hp. apply in_map_iff in Hp. destruct Hp as (p' & <- & Hp). apply MIN; auto. }
  split; [exact SUP'|]. split.
  { destruct vs as [|w r]; [congruence|]. pose proof (iscontinuous_cycle (map P (v :: w :: r))) as C.
    unfold isclosed. rewrite C. cbn [map]. unfold last_point, last_segment.
    unfold cycle_poly. rewrite cycle_edges_pairs. change (P v :: (P w :: map P r) ++ [P v]) with ((P v :: P w :: map P r) ++ [P v]).
    rewrite pairs_app1, map_app. unfold first_point, first_segment, get.
    unfold last_opt. rewrite pairs_cons. cbn. rewrite last_last. cbn. rewrite pt_eqb_refl. reflexivity. }
  split; [exact VAL|]. split.
  - intros D. pose proof (COL (proj1 CO D)) as L2. destruct vs as [|w [|x r]]; try discriminate. split; [reflexivity|].
    assert (T : turns (cycle_poly (map P [v; w])) = [0; 0]).
    { unfold turns, cycle_poly. cbn [map cycle_edges combine app fst snd]. rewrite !crossproduct_R. cbn [si sj LineSegment].
      f_equal; [rring|f_equal; rring]. }
    assert (CV : isconvex (cycle_poly (map P [v; w])) = Ok true).
    { rewrite isconvex_eq by auto. rewrite T. cbn. unfold Rleb. destruct (Rle_dec 0 0); [reflexivity|lra]. }
    rewrite iscw_convex_eq by auto. rewrite T. cbn. rewrite !Rplus_0_r. unfold Rltb. destruct (Rlt_dec 0 0); [lra|reflexivity].
  - intros D. assert (D' := D). rewrite CO in D'. destruct (NCOL D') as [L3 TU].
    assert (TU' : forall a b c, In (a, b) (cycle_edges (map P (v :: vs))) -> In (b, c) (cycle_edges (map P (v :: vs))) -> 0 < orient a b c).
    { intros a b c H1 H2. apply cycle_edges_P in H1, H2. destruct H1 as (a' & b' & -> & -> & H1), H2 as (b2 & c' & E & -> & H2).
      apply P_inj in E. subst b2. apply (TU a' b' c'); auto. }
    assert (SH : 0 < shoelace (map P (v :: vs))).
    { destruct vs as [|w [|x r]]; try (cbn in L3; lia).
      rewrite (shoelace_orient (P x)).
      assert (E1 : cycle_edges (map P (v :: w :: x :: r)) = (P v, P w) :: (P w, P x) :: combine (P x :: map P r) (map P r ++ [P v])) by reflexivity.
      assert (NN : forall y, In y (map (fun e => orient (fst e) (snd e) (P x)) (combine (P x :: map P r) (map P r ++ [P v]))) -> 0 <= y).
      { intros y Hy. apply in_map_iff in Hy. destruct Hy as ([a b] & <- & Hy). apply SUP'; [rewrite E1; right; right; exact Hy|].
        apply INC'. right; right; left; reflexivity. }
      apply sum_nonneg_zero in NN. destruct NN as [NN _].
      assert (0 < orient (P v) (P w) (P x)) by (apply TU'; rewrite E1; [left|right; left]; reflexivity).
      assert (0 <= orient (P w) (P x) (P x)) by (apply SUP'; [rewrite E1; right; left; reflexivity|apply INC'; right; right; left; reflexivity]).
      rewrite E1. cbn [map fold_right fst snd]. cbn [map] in NN. simpl in *. lra. }
    destruct (convex_orientation (map P (v :: vs))) as (_ & C1 & _ & C3 & _); auto.
    { intros a b H ->. pose proof (cycle_edges_nth _ (map P (v :: vs))) as CN. apply In_nth_error in H as [k H]. apply CN in H as [H1 H2].
      rewrite NoDup_nth_error in NDP. assert (L4 : (k < length (map P (v :: vs)))%nat) by (apply nth_error_Some; congruence).
      assert (X := NDP k (if Nat.eqb (S k) (length (map P (v :: vs))) then 0%nat else S k) L4 ltac:(congruence)).
      rewrite map_length in *. destruct (Nat.eqb_spec (S k) (length (v :: vs))); lia. }
    rewrite map_length. auto.
Qed.

(*@ex C37_example *)
(** Six points, one of them repeated, one in the interior, one on an edge: the hypotheses of C37_hull
    hold, and the points are not collinear. *)
Lemma hull_example :
  let pts := map (fun p => @mkpt RA (fst p) (snd p)) [(4, 0); (1, 1); (0, 0); (2, 0); (0, 3); (0, 0)] in
  (forall p, In p pts -> stored p) /\ separated pts /\ (exists p q, In p pts /\ In q pts /\ p <> q) /\
  ~ (forall a b c, In a pts -> In b pts -> In c pts -> orient a b c = 0).
Proof.
  intros pts. split; [|split; [|split]].
  - assert (ST : forall a b, stored (@mkpt RA (IZR a) (IZR b))).
    { intros a b. split; [exists (a * 10^8)%Z|exists (b * 10^8)%Z]; rewrite mult_IZR; change (IZR (10^8)) with (IZR 100000000); cbn [px py]; simpl; field. }
    intros p H. cbn in H. repeat (destruct H as [<-|H]; [apply ST|]). destruct H.
  - intros p q Hp Hq A B. apply Rabs_def2 in A, B. cbn in Hp, Hq.
    repeat (destruct Hp as [<-|Hp]); try destruct Hp; repeat (destruct Hq as [<-|Hq]); try destruct Hq; simpl in *; auto; lra.
  - exists (@mkpt RA 4 0), (@mkpt RA 1 1). cbn. split; auto. split; auto. intros E. injection E. lra.
  - intros H. assert (orient (@mkpt RA 0 0) (@mkpt RA 4 0) (@mkpt RA 0 3) = 0) by (apply H; cbn; auto 7). unfold orient in H0. simpl in H0. lra.
Qed.
