(** Polygon properties that need no object identities. *)
From Coq Require Import Reals ZArith Lra Lia Bool List Psatz Permutation.
From Coq Require Import SpecFloat.
From Verif Require Import Base Arith ArithR ArithF MPoint MLine MPoly Spec PPoint PLine PFloat.
Import ListNotations.
Local Open Scope R_scope.

(** * C24: bounding box *)
Section BB.
Context (A : Arith) (ok : num -> Prop) (OL : ord_laws A ok).

Lemma nmin_cases : forall a b : num, nmin a b = a \/ nmin a b = b.
Proof. intros. unfold nmin. destruct (nltb b a); auto. Qed.
Lemma nmax_cases : forall a b : num, nmax a b = a \/ nmax a b = b.
Proof. intros. unfold nmax. destruct (nltb a b); auto. Qed.
Lemma nmin_ok : forall a b, ok a -> ok b -> ok (nmin a b).
Proof. intros. destruct (nmin_cases a b) as [-> | ->]; auto. Qed.
Lemma nmax_ok : forall a b, ok a -> ok b -> ok (nmax a b).
Proof. intros. destruct (nmax_cases a b) as [-> | ->]; auto. Qed.
Lemma nmin_le : forall a b, ok a -> ok b -> nleb (nmin a b) a = true /\ nleb (nmin a b) b = true.
Proof.
  intros a b Ha Hb. unfold nmin. destruct (nltb b a) eqn:E.
  - split; [apply (ol_ltb_leb A ok OL)|apply (ol_refl A ok OL)]; auto.
  - split; [apply (ol_refl A ok OL)|apply (ol_total A ok OL)]; auto.
Qed.
Lemma nmax_le : forall a b, ok a -> ok b -> nleb a (nmax a b) = true /\ nleb b (nmax a b) = true.
Proof.
  intros a b Ha Hb. unfold nmax. destruct (nltb a b) eqn:E.
  - split; [apply (ol_ltb_leb A ok OL)|apply (ol_refl A ok OL)]; auto.
  - split; [apply (ol_refl A ok OL)|apply (ol_total A ok OL)]; auto.
Qed.

(** A fold of min over two numbers per element. *)
Definition fmin (f g : seg A -> num) (l : list (seg A)) (m : num) : num :=
  fold_left (fun m s => nmin m (nmin (f s) (g s))) l m.
Definition fmax (f g : seg A -> num) (l : list (seg A)) (m : num) : num :=
  fold_left (fun m s => nmax m (nmax (f s) (g s))) l m.

Lemma fmin_spec : forall f g l m, ok m -> (forall s, In s l -> ok (f s) /\ ok (g s)) ->
  ok (fmin f g l m) /\ nleb (fmin f g l m) m = true /\
  (forall s, In s l -> nleb (fmin f g l m) (f s) = true /\ nleb (fmin f g l m) (g s) = true) /\
  (fmin f g l m = m \/ exists s, In s l /\ (fmin f g l m = f s \/ fmin f g l m = g s)).
Proof.
  induction l as [|x l IH]; intros m Hm H; unfold fmin; simpl.
  - split; auto. split; [apply (ol_refl A ok OL); auto|]. split; [intros ? []|auto].
  - destruct (H x (or_introl eq_refl)) as [Hf Hg].
    pose proof (nmin_ok _ _ Hf Hg) as Hfg. pose proof (nmin_ok _ _ Hm Hfg) as Hn.
    destruct (IH _ Hn (fun s I => H s (or_intror I))) as (O & L & B & E).
    fold (fmin f g l (nmin m (nmin (f x) (g x)))) in *. set (r := fmin f g l _) in *.
    destruct (nmin_le m _ Hm Hfg) as [L1 L2]. destruct (nmin_le _ _ Hf Hg) as [L3 L4].
    split; auto. split; [eapply (ol_trans A ok OL); [| | |exact L|]; eauto|]. split.
    + intros s [<-|I]; auto.
      assert (nleb r (nmin (f x) (g x)) = true) by (eapply (ol_trans A ok OL); [| | |exact L|]; eauto).
      split; eapply (ol_trans A ok OL) with (b := nmin (f x) (g x)); eauto.
    + destruct E as [E|(s & I & E)]; [|right; eauto].
      destruct (nmin_cases m (nmin (f x) (g x))) as [C|C]; [left; congruence|].
      right. exists x. split; auto.
      destruct (nmin_cases (f x) (g x)) as [D|D]; [left|right]; congruence.
Qed.

Lemma fmax_spec : forall f g l m, ok m -> (forall s, In s l -> ok (f s) /\ ok (g s)) ->
  ok (fmax f g l m) /\ nleb m (fmax f g l m) = true /\
  (forall s, In s l -> nleb (f s) (fmax f g l m) = true /\ nleb (g s) (fmax f g l m) = true) /\
  (fmax f g l m = m \/ exists s, In s l /\ (fmax f g l m = f s \/ fmax f g l m = g s)).
Proof.
  induction l as [|x l IH]; intros m Hm H; unfold fmax; simpl.
  - split; auto. split; [apply (ol_refl A ok OL); auto|]. split; [intros ? []|auto].
  - destruct (H x (or_introl eq_refl)) as [Hf Hg].
    pose proof (nmax_ok _ _ Hf Hg) as Hfg. pose proof (nmax_ok _ _ Hm Hfg) as Hn.
    destruct (IH _ Hn (fun s I => H s (or_intror I))) as (O & L & B & E).
    fold (fmax f g l (nmax m (nmax (f x) (g x)))) in *. set (r := fmax f g l _) in *.
    destruct (nmax_le m _ Hm Hfg) as [L1 L2]. destruct (nmax_le _ _ Hf Hg) as [L3 L4].
    split; auto. split; [eapply (ol_trans A ok OL); [| | | |exact L]; eauto|]. split.
    + intros s [<-|I]; auto.
      assert (nleb (nmax (f x) (g x)) r = true) by (eapply (ol_trans A ok OL); [| | | |exact L]; eauto).
      split; [eapply (ol_trans A ok OL) with (b := nmax (f x) (g x))|eapply (ol_trans A ok OL) with (b := nmax (f x) (g x))]; eauto.
    + destruct E as [E|(s & I & E)]; [|right; eauto].
      destruct (nmax_cases m (nmax (f x) (g x))) as [C|C]; [left; congruence|].
      right. exists x. split; auto.
      destruct (nmax_cases (f x) (g x)) as [D|D]; [left|right]; congruence.
Qed.

Lemma bounding_box_eq : forall (l : list (seg A)) b,
  fold_left bb_step l b =
  ((fmin (fun s => px (si s)) (fun s => px (sj s)) l (fst (fst b)),
    fmax (fun s => px (si s)) (fun s => px (sj s)) l (snd (fst b))),
   (fmin (fun s => py (si s)) (fun s => py (sj s)) l (fst (snd b)),
    fmax (fun s => py (si s)) (fun s => py (sj s)) l (snd (snd b)))).
Proof.
  induction l as [|x l IH]; intros [[a b] [c d]]; [reflexivity|].
  simpl. rewrite IH. reflexivity.
Qed.
End BB.

(*@ C24_bounding_box *)
(** C24, for every arithmetic whose comparisons are a total order on the numbers involved: the box
    contains every end point, and if the coordinates are within +-1e11 each side of the box is
    attained by an end point. *)
Lemma bounding_box_spec : forall (A : Arith) (ok : num -> Prop) (l : list (seg A)) (xmin xmax ymin ymax : num),
  ord_laws A ok -> ok (nofZ 100000000000) -> ok (nopp (nofZ 100000000000)) ->
  let ends := flat_map ij l in
  (forall p, In p ends -> ok (px p) /\ ok (py p)) ->
  bounding_box l = ((xmin, xmax), (ymin, ymax)) ->
  (forall p, In p ends -> nleb xmin (px p) = true /\ nleb (px p) xmax = true /\
                          nleb ymin (py p) = true /\ nleb (py p) ymax = true) /\
  (l <> [] ->
   (forall p, In p ends ->
      nleb (nopp (nofZ 100000000000)) (px p) = true /\ nleb (px p) (nofZ 100000000000) = true /\
      nleb (nopp (nofZ 100000000000)) (py p) = true /\ nleb (py p) (nofZ 100000000000) = true) ->
   (exists p, In p ends /\ nleb (px p) xmin = true) /\ (exists p, In p ends /\ nleb xmax (px p) = true) /\
   (exists p, In p ends /\ nleb (py p) ymin = true) /\ (exists p, In p ends /\ nleb ymax (py p) = true)).
Proof.
  intros A ok l x1 x2 y1 y2 OL OB ONB ends OK BB.
  unfold bounding_box in BB. rewrite bounding_box_eq in BB. cbn [bb0 fst snd] in BB.
  injection BB as E1 E2 E3 E4.
  set (big := nofZ 100000000000) in *.
  assert (forall s, In s l -> In (si s) ends /\ In (sj s) ends) as IE.
  { intros s I. unfold ends. split; apply in_flat_map; exists s; simpl; auto. }
  assert (forall p, In p ends -> exists s, In s l /\ (p = si s \/ p = sj s)) as EI.
  { intros p I. apply in_flat_map in I as (s & I & J). exists s. split; auto. simpl in J. intuition. }
  assert (forall s, In s l -> ok (px (si s)) /\ ok (px (sj s))) as OX.
  { intros s I. destruct (IE s I) as [I1 I2]. split; apply OK; auto. }
  assert (forall s, In s l -> ok (py (si s)) /\ ok (py (sj s))) as OY.
  { intros s I. destruct (IE s I) as [I1 I2]. split; apply OK; auto. }
  destruct (fmin_spec A ok OL _ _ l big OB OX) as (A1 & A2 & A3 & A4).
  destruct (fmax_spec A ok OL _ _ l (nopp big) ONB OX) as (B1 & B2 & B3 & B4).
  destruct (fmin_spec A ok OL _ _ l big OB OY) as (C1 & C2 & C3 & C4).
  destruct (fmax_spec A ok OL _ _ l (nopp big) ONB OY) as (D1 & D2 & D3 & D4).
  rewrite E1 in *. rewrite E2 in *. rewrite E3 in *. rewrite E4 in *.
  split.
  - intros p I. destruct (EI p I) as (s & J & [-> | ->]); repeat split; first [apply A3|apply B3|apply C3|apply D3]; auto.
  - intros NE R. destruct l as [|s0 l0]; [congruence|]. set (l := s0 :: l0) in *.
    destruct (IE s0 (or_introl eq_refl)) as [I0 _]. 
    split; [|split; [|split]].
    + destruct A4 as [->|(s & I & [->| ->])].
      * exists (si s0). split; auto. apply R; auto.
      * exists (si s). split; [apply IE; auto|]. apply (ol_refl A ok OL), OX; auto.
      * exists (sj s). split; [apply IE; auto|]. apply (ol_refl A ok OL), OX; auto.
    + destruct B4 as [->|(s & I & [->| ->])].
      * exists (si s0). split; auto. apply R; auto.
      * exists (si s). split; [apply IE; auto|]. apply (ol_refl A ok OL), OX; auto.
      * exists (sj s). split; [apply IE; auto|]. apply (ol_refl A ok OL), OX; auto.
    + destruct C4 as [->|(s & I & [->| ->])].
      * exists (si s0). split; auto. apply R; auto.
      * exists (si s). split; [apply IE; auto|]. apply (ol_refl A ok OL), OY; auto.
      * exists (sj s). split; [apply IE; auto|]. apply (ol_refl A ok OL), OY; auto.
    + destruct D4 as [->|(s & I & [->| ->])].
      * exists (si s0). split; auto. apply R; auto.
      * exists (si s). split; [apply IE; auto|]. apply (ol_refl A ok OL), OY; auto.
      * exists (sj s). split; [apply IE; auto|]. apply (ol_refl A ok OL), OY; auto.
Qed.

(*@ C24_order_laws *)
(** The laws assumed by C24_bounding_box hold for the exact reals and for all binary64 numbers that
    are not NaN. *)
Lemma ord_laws_hold :
  ord_laws RA (fun _ => True) /\ (forall L : Libm, ord_laws (FA L) (fun x => x <> S754_nan)).
Proof.
  split.
  - constructor; intros; simpl in *.
    + apply Rltb_true in H1. apply Rleb_true. lra.
    + apply Rltb_false in H1. apply Rleb_true. lra.
    + apply Rleb_true. lra.
    + apply Rleb_true in H2, H3. apply Rleb_true. lra.
  - intros L. constructor; simpl; intros.
    + apply SFleb_key; auto. apply SFltb_key in H1; auto. intros K. exact (klt_irrefl _ (klt_trans _ _ _ H1 K)).
    + apply SFleb_key; auto. intros K. apply SFltb_key in K; auto. congruence.
    + apply SFleb_key; auto. apply klt_irrefl.
    + apply SFleb_key in H2, H3; auto. apply SFleb_key; auto. intros K.
      destruct (klt_total (key a) (key b)) as [T|[T|T]]; [|congruence|tauto].
      apply H3. exact (klt_trans _ _ _ K T).
Qed.

#[local] Existing Instance RA.
Lemma nofZ_R : forall z, @nofZ RA z = IZR z.
Proof. reflexivity. Qed.

(*@ C24_bounding_box_exact *)
(** C24, exact arithmetic: a tight box, each side through an end point. *)
Lemma bounding_box_exact : forall (l : list (seg RA)) (xmin xmax ymin ymax : R),
  let ends := flat_map ij l in l <> [] ->
  (forall p, In p ends -> Rabs (px p) <= 10^11 /\ Rabs (py p) <= 10^11) ->
  bounding_box l = ((xmin, xmax), (ymin, ymax)) ->
  (forall p, In p ends -> xmin <= px p <= xmax /\ ymin <= py p <= ymax) /\
  (exists p, In p ends /\ px p = xmin) /\ (exists p, In p ends /\ px p = xmax) /\
  (exists p, In p ends /\ py p = ymin) /\ (exists p, In p ends /\ py p = ymax).
Proof.
  intros l x1 x2 y1 y2 ends NE R BB.
  replace (10^11) with 100000000000 in R by lra.
  destruct (bounding_box_spec RA (fun _ => True) l x1 x2 y1 y2 (proj1 ord_laws_hold) I I) as [C T]; auto.
  fold ends in C, T.
  assert (forall p, In p ends -> x1 <= px p <= x2 /\ y1 <= py p <= y2) as C'.
  { intros p Ip. destruct (C p Ip) as (H1 & H2 & H3 & H4). simpl in *.
    apply Rleb_true in H1, H2, H3, H4. lra. }
  split; auto.
  destruct T as ((p1 & I1 & T1) & (p2 & I2 & T2) & (p3 & I3 & T3) & (p4 & I4 & T4)); auto.
  { intros p Ip. destruct (R p Ip) as [R1 R2]. apply Rabs_le_inv in R1, R2. simpl.
    rewrite !Rleb_true. lra. }
  simpl in *. apply Rleb_true in T1, T2, T3, T4.
  pose proof (C' _ I1). pose proof (C' _ I2). pose proof (C' _ I3). pose proof (C' _ I4).
  split; [exists p1; split; auto; lra|]. split; [exists p2; split; auto; lra|].
  split; [exists p3; split; auto; lra|exists p4; split; auto; lra].
Qed.

(*@ C24_bounding_box_binary64 *)
(** C24, binary64: contains every end point whatever the libm, unless a coordinate is NaN. *)
Lemma bounding_box_binary64 : forall (L : Libm) (l : list (seg (FA L))) (xmin xmax ymin ymax : F),
  (forall p, In p (flat_map ij l) -> px p <> S754_nan /\ py p <> S754_nan) ->
  bounding_box l = ((xmin, xmax), (ymin, ymax)) ->
  forall p, In p (flat_map ij l) ->
    SFleb xmin (px p) = true /\ SFleb (px p) xmax = true /\ SFleb ymin (py p) = true /\ SFleb (py p) ymax = true.
Proof.
  intros L l x1 x2 y1 y2 OK BB.
  refine (proj1 (bounding_box_spec (FA L) (fun x => x <> S754_nan) l x1 x2 y1 y2 (proj2 ord_laws_hold L) _ _ OK BB)); 
    simpl; discriminate.
Qed.

(*@ C24_bounding_box_big_refuted *)
(** C24, finding: beyond 1e11 the box is not tight. *)
Lemma bounding_box_big_refuted : exists (l : list (seg RA)) (xmin xmax ymin ymax : R),
  bounding_box l = ((xmin, xmax), (ymin, ymax)) /\ forall p, In p (flat_map ij l) -> xmin < px p.
Proof.
  set (p := @mkpt RA 200000000000 0). set (q := @mkpt RA 300000000000 1).
  exists [LineSegment p q]. do 4 eexists. split; [reflexivity|].
  simpl. rewrite !nmin_R. intros r [<-|[<-|[]]]; simpl; unfold Rmin; repeat destruct (Rle_dec _ _); lra.
Qed.
