(** Binary64 on whole coordinates up to 2000: order(), walk_segments() and find_loops(). *)
From Coq Require Import ZArith Reals Lra Lia Bool List Permutation Arith Floats.SpecFloat.
From Flocq Require Import Core BinarySingleNaN Relative.
From Verif Require Import Base Arith ArithR ArithF MPoint MLine MPoly MHeap Spec SpecHeap SpecDouble PPoint PLine PTrig PCommon PShape PConvex POrder PHull PFlocq PHeap PDouble PExact PWhole.
From Verif Require Import MGroup SpecGroup SpecLoops SpecWhole PGroup PWalk PLoops.
Import ListNotations.
Local Open Scope R_scope.
#[local] Existing Instance RA.

(** * The key by which order() chooses the first segment *)
Definition root (x : F) (u : R) : Prop := exists n : Z, (0 <= n <= 32000000)%Z /\ stands x (sqrt (IZR n)) /\ u = sqrt (IZR n).
Lemma sqrt_bound : forall n, (0 <= n <= 32000000)%Z -> 0 <= sqrt (IZR n) <= 6000.
Proof.
  intros n [H1 H2]. apply IZR_le in H1, H2. split; [apply sqrt_pos|]. replace 6000 with (sqrt (Rsqr 6000)) by (apply sqrt_Rsqr; lra). apply sqrt_le_1_alt. unfold Rsqr. lra.
Qed.
Lemma sqrt_gap : forall m n, (0 <= m)%Z -> (m < n)%Z -> (n <= 32000000)%Z -> sqrt (IZR m) + 1 / 12000 <= sqrt (IZR n).
Proof.
  intros m n M L N. destruct (sqrt_bound m) as [A1 A2]; [lia|]. destruct (sqrt_bound n) as [B1 B2]; [lia|].
  assert (Em : sqrt (IZR m) * sqrt (IZR m) = IZR m) by (apply sqrt_sqrt; apply (IZR_le 0); lia). assert (En : sqrt (IZR n) * sqrt (IZR n) = IZR n) by (apply sqrt_sqrt; apply (IZR_le 0); lia).
  assert (G : IZR m + 1 <= IZR n) by (rewrite <- plus_IZR; apply IZR_le; lia). set (a := sqrt (IZR m)) in *. set (b := sqrt (IZR n)) in *.
  destruct (Rle_lt_dec (a + 1 / 12000) b) as [H|H]; [exact H|exfalso]. assert (b * b < (a + 1 / 12000) * (a + 1 / 12000)) by (apply Rmult_le_0_lt_compat; lra).
  assert ((a + 1 / 12000) * (a + 1 / 12000) = a * a + a / 6000 + 1 / 144000000) by field. destruct (Rle_lt_dec a 5999) as [Q|Q]; [lra|].
  assert (K : 5999 * 5999 <= a * a) by (apply Rmult_le_compat; lra). apply (IZR_le _ 32000000) in N. lra.
Qed.
Lemma root_cmp : forall x y u v, root x u -> root y v -> SFltb x y = Rltb u v /\ SFeqb x y = Reqb u v.
Proof.
  intros x y u v (m & M & [D1 V1] & ->) (n & N & [D2 V2] & ->). destruct (sqrt_bound m M) as [A1 A2]. destruct (sqrt_bound n N) as [B1 B2].
  assert (Q1 : Rabs (nearest (sqrt (IZR m)) - sqrt (IZR m)) <= eps) by (apply rnd_err; apply Rabs_le; lra).
  assert (Q2 : Rabs (nearest (sqrt (IZR n)) - sqrt (IZR n)) <= eps) by (apply rnd_err; apply Rabs_le; lra).
  apply Rabs_le_inv in Q1, Q2. unfold eps in *. rewrite fltb, feqb, V1, V2 by auto. destruct (Z.lt_trichotomy m n) as [H|[H|H]].
  - pose proof (sqrt_gap m n ltac:(lia) H ltac:(lia)) as G. rewrite Rlt_bool_true by lra. rewrite Req_bool_false by lra. split; symmetry; [apply Rltb_true|apply Reqb_false]; lra.
  - subst n. rewrite Rlt_bool_false by lra. rewrite Req_bool_true by lra. split; symmetry; [apply Rltb_false|apply Reqb_true]; lra.
  - pose proof (sqrt_gap n m ltac:(lia) H ltac:(lia)) as G. rewrite Rlt_bool_false by lra. rewrite Req_bool_false by lra. split; symmetry; [apply Rltb_false|apply Reqb_false]; lra.
Qed.
Lemma distance_root : forall L p q p' q', wpt L p p' -> wpt L q q' -> root (pt_distance p q) (pt_distance (A := RA) p' q').
Proof.
  intros L p q p' q' P Q. destruct (wpt_wb L p p' P) as (a & b & [[_ A1] A2] & [[_ B1] B2]). destruct (wpt_wb L q q' Q) as (c & d & [[_ C1] C2] & [[_ D1] D2]).
  exists ((a - c) * (a - c) + (b - d) * (b - d))%Z. assert (K1 : (0 <= (a - c) * (a - c) <= 16000000)%Z).
  { split; [apply Z.square_nonneg|]. pose proof (abs_mul_le (a - c) (a - c) 4000 4000 ltac:(lia) ltac:(lia)). lia. }
  assert (K2 : (0 <= (b - d) * (b - d) <= 16000000)%Z).
  { split; [apply Z.square_nonneg|]. pose proof (abs_mul_le (b - d) (b - d) 4000 4000 ltac:(lia) ltac:(lia)). lia. }
  assert (E : pt_distance (A := RA) p' q' = sqrt (IZR ((a - c) * (a - c) + (b - d) * (b - d)))).
  { rewrite plus_IZR, !mult_IZR, !minus_IZR, <- A1, <- B1, <- C1, <- D1. reflexivity. }
  split; [lia|]. split; [|exact E]. rewrite <- E. destruct (wpt_ept L p p' P) as [X1 X2]. destruct (wpt_ept L q q' Q) as [Y1 Y2]. apply (distance_near L p q p' q'); auto.
Qed.
Lemma origin_wpt : forall L, wpt L (Point_new (A := FA L) n0 n0) (Point_new (A := RA) n0 n0).
Proof.
  intros L. assert (O : lattice 2000 (@mkpt RA 0 0)) by (exists 0%Z, 0%Z; simpl; repeat split; lia).
  assert (E : Point_new (A := RA) n0 n0 = @mkpt RA 0 0) by (apply (lattice_grid 2000 (@mkpt RA 0 0) O)).
  rewrite E. split; [|exact O]. split; split; try (split; vm_compute; reflexivity); unfold SpecDouble.value; vm_compute; reflexivity.
Qed.
Lemma wpt_num : forall L p q p' q', wpt L p p' -> wpt L q q' ->
  SFltb (px p) (px q) = Rltb (px p') (px q') /\ SFltb (py p) (py q) = Rltb (py p') (py q') /\ SFeqb (px p) (px q) = Reqb (px p') (px q') /\ SFeqb (py p) (py q) = Reqb (py p') (py q').
Proof.
  intros L p q p' q' P Q. destruct (wpt_wh L p p' P) as (a & b & A & B & _). destruct (wpt_wh L q q' Q) as (c & d & C & D & _). apply wh_on in A, B, C, D.
  repeat split; (eapply on_ltb || eapply on_eqb); eassumption.
Qed.
Lemma key_wh : forall L s s' t t', wseg L s s' -> wseg L t t' -> order_key_ltb s t = order_key_ltb (A := RA) s' t'.
Proof.
  intros L s s' t t' (_ & S1 & S2) (_ & T1 & T2). destruct (wpt_num L _ _ _ _ S1 T1) as (X1 & X2 & X3 & X4). destruct (wpt_num L _ _ _ _ T1 S1) as (Y1 & Y2 & Y3 & Y4).
  pose proof (distance_root L _ _ _ _ (origin_wpt L) S1) as D1. pose proof (distance_root L _ _ _ _ (origin_wpt L) T1) as D2. destruct (root_cmp _ _ _ _ D1 D2) as [K1 K2].
  pose proof (distance_root L _ _ _ _ S2 S1) as N1. pose proof (distance_root L _ _ _ _ T2 T1) as N2. destruct (root_cmp _ _ _ _ N1 N2) as [M1 _].
  unfold order_key_ltb. cbv zeta.
  change (@neqb (FA L)) with SFeqb. change (@nltb (FA L)) with SFltb. change (@neqb RA) with Reqb. change (@nltb RA) with Rltb.
  rewrite K1, K2, X1, X2, X3, X4.
  assert (Z : SFltb (norm s) (norm t) = Rltb (norm s') (norm t')) by exact M1. rewrite Z. reflexivity.
Qed.
Lemma wpt_eq : forall L a b c d, wpt L a b -> wpt L c d -> pt_eqb a c = pt_eqb b d.
Proof. intros L a b c d H K. apply (ept_eq L); apply wpt_ept; auto. Qed.
Lemma wpt_same : forall L a b c d, wpt L a b -> wpt L c d -> pt_sameb a c = pt_sameb b d.
Proof. intros L a b c d H K. apply (ept_same L); apply wpt_ept; auto. Qed.
Lemma wseg_eq : forall L s s' t t', wseg L s s' -> wseg L t t' -> seg_eqb s t = seg_eqb s' t'.
Proof. intros L s s' t t' H K. apply (eseg_eq L); apply wseg_eseg; auto. Qed.
Lemma wseg_same : forall L s s' t t', wseg L s s' -> wseg L t t' -> seg_sameb s t = seg_sameb s' t'.
Proof. intros L s s' t t' H K. apply (eseg_eq L); apply wseg_eseg; auto. Qed.
Lemma wseg_rev : forall L s s', wseg L s s' -> wseg L (seg_reverse s) (seg_reverse s') /\ wseg L (line_reversed s) (line_reversed s').
Proof. intros L s s' (C & H & K). split; (split; [|split; auto]); simpl; auto. Qed.
Lemma wseg_ij : forall L s s', wseg L s s' -> Forall2 (wpt L) (ij s) (ij s').
Proof. intros L s s' (_ & H & K). unfold ij. auto. Qed.

(** * order() *)
Lemma rel_nth : forall {X Y} (Q : X -> Y -> Prop) l l' k, Forall2 Q l l' -> match nth_error l k, nth_error l' k with Some x, Some y => Q x y | None, None => True | _, _ => False end.
Proof. intros X Y Q l l' k H. revert k. induction H as [|x y l l' H _ IH]; intros [|k]; simpl; auto. apply IH. Qed.
Lemma rel_find : forall {X Y} (Q : X -> Y -> Prop) f g k l l', Forall2 Q l l' -> (forall x y, Q x y -> f x = g y) -> find_from f k l = find_from g k l'.
Proof. intros X Y Q f g k l l' H E. revert k. induction H as [|x y l l' H _ IH]; intros k; simpl; [reflexivity|]. rewrite (E x y H), IH. reflexivity. Qed.
Lemma rel_upd : forall {X Y} (Q : X -> Y -> Prop) f g k l l', Forall2 Q l l' -> (forall x y, Q x y -> Q (f x) (g y)) -> Forall2 Q (upd k f l) (upd k g l').
Proof. intros X Y Q f g k l l' H E. revert k. induction H as [|x y l l' H K IH]; intros [|k]; simpl; auto. Qed.
Definition wost L (o : ostate (A := FA L)) (o' : ostate (A := RA)) : Prop :=
  wpoly L (o_segs o) (o_segs o') /\ o_akt o = o_akt o' /\ wpt L (o_end o) (o_end o') /\ o_ret o = o_ret o'.
Lemma step_wh : forall L o o', wost L o o' -> match order_step o, order_step (A := RA) o' with inl a, inl b => wost L a b | inr a, inr b => wpoly L a b | _, _ => False end.
Proof.
  intros L [segs akt e ret] [segs' akt' e' ret'] (P & A & E & R). simpl in *. subst akt' ret'. unfold order_step. cbn [o_segs o_akt o_end o_ret].
  pose proof (rel_nth (wseg L) segs segs' akt P) as N. destruct (nth_error segs akt) as [x|], (nth_error segs' akt) as [x'|]; try contradiction; [|exact P].
  assert (F1 : find_from (fun y => pt_eqb (si y) e && negb (seg_eqb y x)) 0 segs = find_from (fun y => pt_eqb (si y) e' && negb (seg_eqb y x')) 0 segs').
  { apply (rel_find (wseg L)); [exact P|]. intros y y' Y. rewrite (wseg_eq L y y' x x' Y N), (wpt_eq L (si y) (si y') e e'); auto. apply Y. }
  assert (F2 : find_from (fun y => pt_eqb (sj y) e && negb (seg_eqb y x)) 0 segs = find_from (fun y => pt_eqb (sj y) e' && negb (seg_eqb y x')) 0 segs').
  { apply (rel_find (wseg L)); [exact P|]. intros y y' Y. rewrite (wseg_eq L y y' x x' Y N), (wpt_eq L (sj y) (sj y') e e'); auto. apply Y. }
  rewrite F1, F2. set (pick := match find_from _ 0 segs' with Some k => Some (k, false) | None => _ end). destruct pick as [[k flip]|]; [|exact P].
  pose proof (rel_nth (wseg L) segs segs' k P) as K. destruct (nth_error segs k) as [y|], (nth_error segs' k) as [y'|]; try contradiction; [|exact P].
  assert (I : existsb (fun r => Nat.eqb r k || match nth_error segs r with Some z => seg_eqb z y | None => false end) ret
            = existsb (fun r => Nat.eqb r k || match nth_error segs' r with Some z => seg_eqb z y' | None => false end) ret).
  { clear - P K. induction ret as [|r ret IH]; simpl; [reflexivity|]. rewrite IH. f_equal. f_equal. pose proof (rel_nth (wseg L) segs segs' r P) as Q.
    destruct (nth_error segs r) as [z|], (nth_error segs' r) as [z'|]; try contradiction; [|reflexivity]. apply (wseg_eq L); auto. }
  rewrite I. set (inret := existsb _ ret).
  assert (U : wpoly L (if negb inret && flip then upd k seg_reverse segs else segs) (if negb inret && flip then upd k seg_reverse segs' else segs')).
  { destruct (negb inret && flip); [|exact P]. apply rel_upd; [exact P|]. intros a b H. apply (wseg_rev L a b H). }
  set (s1 := if negb inret && flip then upd k seg_reverse segs else segs) in *. set (s2 := if negb inret && flip then upd k seg_reverse segs' else segs') in *.
  pose proof (rel_nth (wseg L) s1 s2 k U) as V. destruct (nth_error s1 k) as [z|], (nth_error s2 k) as [z'|]; try contradiction; [|exact P]. split; [exact U|]. split; [reflexivity|]. split; [apply V|reflexivity].
Qed.
Lemma loop_wh : forall L n c o o', wost L o o' ->
  match order_loop n c o, order_loop (A := RA) n c o' with Ok (inl a), Ok (inl b) => wost L a b | Ok (inr a), Ok (inr b) => wpoly L a b | Err e, Err e' => e = e' | _, _ => False end.
Proof.
  intros L. induction n as [|n IH]; intros c o o' H; simpl; [exact H|]. pose proof (step_wh L o o' H) as St. destruct (order_step o) as [a|a], (order_step o') as [b|b]; try contradiction; [|exact St].
  destruct (Nat.ltb 500 (S c)); [reflexivity|]. apply IH. exact St.
Qed.
Lemma rot_wh : forall L n s s' l l', wseg L s s' -> wpoly L l l' -> wpoly L (rotate_to n s l) (rotate_to (A := RA) n s' l').
Proof.
  intros L. induction n as [|n IH]; intros s s' l l' HS H; simpl; [exact H|]. destruct H as [|x y l l' XY H]; [constructor|]. rewrite (wseg_eq L x y s s' XY HS). destruct (seg_eqb y s'); [constructor; auto|].
  apply IH; [exact HS|]. unfold rotate_right. assert (G : Forall2 (wseg L) (rev (x :: l)) (rev (y :: l'))) by (apply rel_rev; constructor; auto). destruct G; [constructor|]. constructor; auto. apply rel_rev. auto.
Qed.
Lemma pick_wh : forall L l l' ks, wpoly L l l' -> wpoly L (flat_map (fun k => match nth_error l k with Some s => [s] | None => [] end) ks) (flat_map (fun k => match nth_error l' k with Some s => [s] | None => [] end) ks).
Proof.
  intros L l l' ks H. induction ks as [|k ks IH]; [constructor|]. simpl. apply Forall2_app; [|exact IH]. pose proof (rel_nth (wseg L) l l' k H) as N.
  destruct (nth_error l k), (nth_error l' k); try contradiction; auto.
Qed.
Lemma order_wh : forall L l l', wpoly L l l' -> match order l, order (A := RA) l' with Ok (b, r), Ok (b', r') => b = b' /\ wpoly L r r' | Err e, Err e' => e = e' | _, _ => False end.
Proof.
  intros L l l' H. pose proof (rel_length _ _ _ H) as Len. unfold order. destruct l as [|a l], l' as [|a' l']; try discriminate; [reflexivity|]. rewrite Len.
  assert (W : wost L (mko (a :: l) 0 (sj a) []) (mko (a' :: l') 0 (sj a') [])) by (inversion H; subst; split; [auto|]; split; [auto|]; split; [|auto]; match goal with Q : wseg _ a a' |- _ => apply Q end).
  pose proof (loop_wh L (2 * length (a' :: l') + 1) 0 _ _ W) as Q. destruct (order_loop _ 0 (mko (a :: l) 0 (sj a) [])) as [[o|o]|e], (order_loop _ 0 (mko (a' :: l') 0 (sj a') [])) as [[o'|o']|e']; try contradiction; simpl; [|split; auto|exact Q].
  destruct Q as (Q1 & _ & _ & Q2). rewrite <- Q2. pose proof (pick_wh L _ _ (o_ret o) Q1) as G. pose proof (rel_sort (wseg L) order_key_ltb order_key_ltb _ _ (key_wh L) G) as So.
  set (r := flat_map _ (o_ret o)) in *. set (r' := flat_map _ (o_ret o)) in *. destruct So as [|x x' s s' X _]; [reflexivity|]. split; [reflexivity|]. rewrite (rel_length _ _ _ G). apply rot_wh; auto.
Qed.
Lemma objs_wh : forall L l l', wpoly L l l' -> wpoly L (order_objs l) (order_objs (A := RA) l').
Proof.
  intros L l l' H. pose proof (rel_length _ _ _ H) as Len. unfold order_objs. destruct l as [|a l], l' as [|a' l']; try discriminate; [constructor|]. rewrite Len.
  assert (W : wost L (mko (a :: l) 0 (sj a) []) (mko (a' :: l') 0 (sj a') [])) by (inversion H; subst; split; [auto|]; split; [auto|]; split; [|auto]; match goal with Q : wseg _ a a' |- _ => apply Q end).
  pose proof (loop_wh L (2 * length (a' :: l') + 1) 0 _ _ W) as Q. destruct (order_loop _ 0 (mko (a :: l) 0 (sj a) [])) as [[o|o]|e], (order_loop _ 0 (mko (a' :: l') 0 (sj a') [])) as [[o'|o']|e']; try contradiction; auto. apply Q.
Qed.

(** * find_loops: the combinations *)
Lemma obj_wh : forall L h h' k, wpoly L h h' -> wpoly L (obj h k) (obj (A := RA) h' k).
Proof. intros L h h' k H. unfold obj. pose proof (rel_nth (wseg L) h h' k H) as N. destruct (nth_error h k), (nth_error h' k); try contradiction; auto; constructor; auto; constructor. Qed.
Lemma value_wh : forall L h h' ids, wpoly L h h' -> wpoly L (value h ids) (value (A := RA) h' ids).
Proof. intros L h h' ids H. induction ids as [|k ids IH]; [constructor|]. simpl. apply Forall2_app; [apply obj_wh; exact H|exact IH]. Qed.
Lemma write_wh : forall L ids h h' l l', wpoly L h h' -> wpoly L l l' -> wpoly L (write h ids l) (write (A := RA) h' ids l').
Proof.
  intros L. induction ids as [|k ids IH]; intros h h' l l' H K; [exact H|]. destruct K as [|x y l l' X K]; [exact H|]. simpl. apply IH; [|exact K]. apply rel_upd; auto.
Qed.
Lemma any_eq : forall L s s' l l', wseg L s s' -> wpoly L l l' -> existsb (fun t => seg_eqb t s) l = existsb (fun t => seg_eqb t s') l'.
Proof. intros L s s' l l' X H. apply (rel_existsb (wseg L)); [exact H|]. intros a b Y. apply (wseg_eq L); auto. Qed.
Lemma hrot_wh : forall L n h h' s s' ids, wpoly L h h' -> wseg L s s' -> hrotate_to n h s ids = hrotate_to (A := RA) n h' s' ids.
Proof.
  intros L. induction n as [|n IH]; intros h h' s s' ids H X; [reflexivity|]. destruct ids as [|k ids]; [reflexivity|]. cbn [hrotate_to]. rewrite (any_eq L s s' _ _ X (obj_wh L h h' k H)). destruct (existsb _ _); [reflexivity|]. apply IH; auto.
Qed.
Lemma horder_wh : forall L h h' ids, wpoly L h h' ->
  match horder h ids, horder (A := RA) h' ids with Ok (b, i, r), Ok (b', i', r') => b = b' /\ i = i' /\ wpoly L r r' | Err e, Err e' => e = e' | _, _ => False end.
Proof.
  intros L h h' ids H. pose proof (value_wh L h h' ids H) as V. unfold horder. destruct V as [|a a' l l' X V]; [reflexivity|]. pose proof (rel_length _ _ _ V) as Len. cbn [length]. rewrite Len.
  assert (W : wost L (mko (a :: l) 0 (sj a) []) (mko (a' :: l') 0 (sj a') [])) by (split; [constructor; auto|]; split; [auto|]; split; [|auto]; apply X).
  pose proof (loop_wh L (2 * S (length l') + 1) 0 _ _ W) as Q. destruct (order_loop _ 0 (mko (a :: l) 0 (sj a) [])) as [[o|o]|e], (order_loop _ 0 (mko (a' :: l') 0 (sj a') [])) as [[o'|o']|e']; try contradiction; cbn [bind]; [| |exact Q].
  - destruct Q as (Q1 & _ & _ & Q2). rewrite <- Q2. pose proof (write_wh L ids _ _ _ _ H Q1) as G. set (r := flat_map _ (o_ret o)).
    pose proof (rel_sort (wseg L) order_key_ltb order_key_ltb _ _ (key_wh L) (value_wh L _ _ r G)) as So. cbv zeta. fold r. destruct So as [|x x' s s' Y _]; [reflexivity|]. split; [reflexivity|]. split; [|exact G]. apply (hrot_wh L); auto.
  - split; [reflexivity|]. split; [reflexivity|]. apply write_wh; auto.
Qed.
Lemma points_wh : forall L l l', wpoly L l l' -> Forall2 (wpt L) (flat_map ij l) (flat_map ij l').
Proof. intros L l l' H. induction H as [|x y l l' X _ IH]; [constructor|]. change (Forall2 (wpt L) (ij x ++ flat_map ij l) (ij y ++ flat_map ij l')). apply Forall2_app; [apply wseg_ij; exact X|exact IH]. Qed.
Lemma twice_wh : forall L l l', wpoly L l l' -> twice l = twice (A := RA) l'.
Proof.
  intros L l l' H. pose proof (points_wh L l l' H) as P. unfold twice. cbv zeta. apply (rel_forallb (wpt L)); [exact P|]. intros p q X. f_equal. apply (rel_length (wpt L)). apply rel_filter; [exact P|].
  intros a b Y. apply (wpt_same L); auto.
Qed.
Lemma free_wh : forall L p p' g g', wpoly L p p' -> wpoly L g g' -> branch_free p g = branch_free (A := RA) p' g'.
Proof.
  intros L p p' g g' P G. unfold branch_free. apply (rel_forallb (wpt L)); [apply points_wh; exact P|]. intros a b X. f_equal. apply (rel_length (wpt L)). apply rel_filter; [apply points_wh; exact G|].
  intros c d Y. apply (wpt_eq L); auto.
Qed.
Lemma used_wh : forall L h h' ids x, wpoly L h h' -> used_by h ids x = used_by (A := RA) h' ids x.
Proof.
  intros L h h' ids x H. unfold used_by. apply (rel_existsb (wseg L)); [apply obj_wh; exact H|]. intros s s' X. f_equal.
  - unfold in_poly. induction ids as [|k ids IH]; [reflexivity|]. cbn [existsb]. rewrite IH. f_equal. f_equal. apply (any_eq L); [exact X|apply obj_wh; exact H].
  - induction ids as [|k ids IH]; [reflexivity|]. cbn [existsb]. rewrite IH. f_equal. apply (any_eq L); [apply (wseg_rev L s s' X)|apply obj_wh; exact H].
Qed.
Lemma poly_eq_wh : forall L a a' b b', wpoly L a a' -> wpoly L b b' -> poly_eqb a b = poly_eqb (A := RA) a' b'.
Proof.
  intros L a a' b b' H K. unfold poly_eqb. rewrite (rel_length _ _ _ H), (rel_length _ _ _ K). f_equal. revert b b' K. induction H as [|x y a a' X _ IH]; intros b b' K; [reflexivity|].
  destruct K as [|z w b b' Z K]; [reflexivity|]. unfold poly_eqb in *. simpl. rewrite (IH b b' K), (wseg_eq L x y z w X Z). reflexivity.
Qed.
Lemma cycles_wh : forall L h h' cs p p', wpoly L h h' -> wpoly L p p' -> in_cycles h cs p = in_cycles (A := RA) h' cs p'.
Proof. intros L h h' cs p p' H P. unfold in_cycles. induction cs as [|c cs IH]; [reflexivity|]. cbn [existsb]. rewrite IH. f_equal. apply (poly_eq_wh L); [apply value_wh; exact H|exact P]. Qed.
Definition wstate L (a : lstate (FA L)) (b : lstate RA) : Prop := wpoly L (l_heap a) (l_heap b) /\ l_graph a = l_graph b /\ l_cycles a = l_cycles b.
Definition wres1 L (r : res (lstate (FA L))) (r' : res (lstate RA)) : Prop :=
  match r, r' with Ok a, Ok b => wstate L a b | Err e, Err e' => e = e' | _, _ => False end.
Lemma filter_used : forall L h h' ids g, wpoly L h h' -> filter (fun x => negb (used_by h ids x)) g = filter (fun x => negb (used_by (A := RA) h' ids x)) g.
Proof. intros L h h' ids g H. apply filter_ext. intros x. rewrite (used_wh L h h' ids x H). reflexivity. Qed.
Lemma try_wh : forall L a b ids, wstate L a b -> wres1 L (try_comb a ids) (try_comb (A := RA) b ids).
Proof.
  intros L [h g c] [h' g' c'] ids (H & G & C). simpl in *. subst g' c'. unfold try_comb. cbn [l_heap l_graph l_cycles]. cbv zeta. rewrite (twice_wh L _ _ (value_wh L h h' ids H)).
  destruct (negb (twice (value h' ids))); [split; auto|]. pose proof (horder_wh L h h' ids H) as Q. destruct (horder h ids) as [[[ok i] h1]|e], (horder h' ids) as [[[ok' i'] h1']|e']; try contradiction; cbn [bind]; [|exact Q].
  destruct Q as (<- & <- & Q). destruct ok; cbn [negb]; [|split; auto]. pose proof (value_wh L h1 h1' i Q) as V. rewrite (valid_wh L _ _ V). destruct (poly_isvalid (value h1' i)) as [v|e]; cbn [bind]; [|reflexivity].
  assert (CL : (if v then isclosed (value h1 i) else Ok false) = (if v then isclosed (value h1' i) else Ok false)) by (destruct v; [apply (epoly_closed L); apply wpoly_epoly; exact V|reflexivity]).
  rewrite CL. destruct (if v then isclosed (value h1' i) else Ok false) as [cl|e]; cbn [bind]; [|reflexivity]. rewrite (cycles_wh L h1 h1' c _ _ Q V). destruct (v && cl && negb (in_cycles h1' c (value h1' i))); [|split; auto].
  rewrite (free_wh L _ _ _ _ V (value_wh L h1 h1' g Q)), (filter_used L h1 h1' i g Q). split; auto.
Qed.
Lemma fold_wh : forall L ks a b, wstate L a b -> wres1 L (foldM try_comb ks a) (foldM (try_comb (A := RA)) ks b).
Proof.
  intros L. induction ks as [|k ks IH]; intros a b H; [exact H|]. cbn [foldM]. pose proof (try_wh L a b k H) as Q. destruct (try_comb a k) as [a1|e], (try_comb b k) as [b1|e']; try contradiction; cbn [bind]; auto.
Qed.
Lemma comb_wh : forall L n c a b, wstate L a b -> wres1 L (comb_rounds n c a) (comb_rounds (A := RA) n c b).
Proof.
  intros L. induction n as [|n IH]; intros c a b H; [exact H|]. cbn [comb_rounds]. destruct H as (H & G & C). rewrite G. destruct (Nat.leb c (length (l_graph b))); [|split; auto].
  pose proof (fold_wh L (combinations (S c) (l_graph b)) a b ltac:(split; auto)) as Q. destruct (foldM try_comb _ a) as [a1|e], (foldM try_comb _ b) as [b1|e']; try contradiction; cbn [bind]; auto.
Qed.

(** * walk_segments, for any order of the sets *)
Definition wwelt L (x : welt (FA L)) (y : welt RA) : Prop := w_id x = w_id y /\ wseg L (w_key x) (w_key y) /\ wseg L (w_cur x) (w_cur y).
Definition wmark L (x : seg (FA L) * bool) (y : seg RA * bool) : Prop := wseg L (fst x) (fst y) /\ snd x = snd y.
Definition wwres L (r : res (wres (FA L))) (r' : res (wres RA)) : Prop :=
  match r, r' with Ok Running, Ok Running => True | Ok NoLoop, Ok NoLoop => True | Ok (Loop l), Ok (Loop l') => wpoly L l l' | Err e, Err e' => e = e' | _, _ => False end.
Definition seg_dec (s t : seg RA) : {s = t} + {s <> t}.
Proof. destruct s as [c i j], t as [c' i' j']. assert (D : {c = c'} + {c <> c'}) by decide equality. destruct D as [->|N]; [|right; congruence]. destruct (pt_dec i i') as [->|N]; [|right; congruence]. destruct (pt_dec j j') as [->|N]; [left; reflexivity|right; congruence]. Defined.
Definition welt_dec (x y : welt RA) : {x = y} + {x <> y}.
Proof. destruct x as [a b c], y as [a' b' c']. destruct (Nat.eq_dec a a') as [->|N]; [|right; congruence]. destruct (seg_dec b b') as [->|N]; [|right; congruence]. destruct (seg_dec c c') as [->|N]; [left; reflexivity|right; congruence]. Defined.
Definition mark_dec (x y : seg RA * bool) : {x = y} + {x <> y}.
Proof. destruct x as [a b], y as [a' b']. destruct (seg_dec a a') as [->|N]; [|right; congruence]. destruct (bool_dec b b') as [->|N]; [left; reflexivity|right; congruence]. Defined.
(** The schedule that gives m for l and ms for ls in round k, and is s in the other rounds. *)
Definition aim (k : nat) (l m : list (welt RA)) (ls ms : list (seg RA * bool)) (s : sched RA) : sched RA :=
  mksched (fun j x => if Nat.eqb j k then if list_eq_dec welt_dec x l then m else x else it_nv s j x)
          (fun j x => if Nat.eqb j k then if list_eq_dec mark_dec x ls then ms else x else it_segs s j x).
Lemma aim_fair : forall k l m ls ms s, Permutation m l -> Permutation ms ls -> fair s -> fair (aim k l m ls ms s).
Proof.
  intros k l m ls ms s P Q [F1 F2]. split; intros j x; simpl; destruct (Nat.eqb j k); auto.
  - destruct (list_eq_dec welt_dec x l) as [->|N]; auto.
  - destruct (list_eq_dec mark_dec x ls) as [->|N]; auto.
Qed.
Lemma aim_here : forall k l m ls ms s, it_nv (aim k l m ls ms s) k l = m /\ it_segs (aim k l m ls ms s) k ls = ms.
Proof. intros. simpl. rewrite Nat.eqb_refl. split; [destruct (list_eq_dec welt_dec l l)|destruct (list_eq_dec mark_dec ls ls)]; auto; contradiction. Qed.
Lemma aim_else : forall k l m ls ms s j x y, j <> k -> it_nv (aim k l m ls ms s) j x = it_nv s j x /\ it_segs (aim k l m ls ms s) j y = it_segs s j y.
Proof. intros k l m ls ms s j x y N. simpl. apply Nat.eqb_neq in N. rewrite N. auto. Qed.
Lemma walk_ext : forall (A : Arith) (s s' : sched A) fuel k nv vis akt p br, (forall j x y, (k <= j)%nat -> it_nv s j x = it_nv s' j x /\ it_segs s j y = it_segs s' j y) ->
  walk_loop s fuel k nv vis akt p br = walk_loop s' fuel k nv vis akt p br.
Proof.
  intros A s s'. induction fuel as [|f IH]; intros k nv vis akt p br E; [reflexivity|]. cbn [walk_loop]. destruct nv as [|x nv]; [reflexivity|].
  rewrite (proj1 (E k (x :: nv) [] (Nat.le_refl k))). destruct (candidates akt p (it_nv s' k (x :: nv))) as [|nxt more]; [reflexivity|]. destruct (filter _ (ij (w_cur nxt))) as [|p' q]; [reflexivity|].
  cbv zeta. rewrite (proj2 (E k [] (walk_segs (set_add vis akt) (w_cur nxt)) (Nat.le_refl k))). destruct (order _) as [[ok r]|e]; [|reflexivity]. cbn [bind]. destruct (if ok then isclosed r else Ok false) as [cl|e]; [|reflexivity]. cbn [bind].
  destruct (ok && cl && negb _); [reflexivity|]. apply IH. intros j a b J. apply E. lia.
Qed.
Lemma rel_candidates : forall L akt akt' p p' l l', wseg L akt akt' -> wpt L p p' -> Forall2 (wwelt L) l l' -> Forall2 (wwelt L) (candidates akt p l) (candidates (A := RA) akt' p' l').
Proof.
  intros L akt akt' p p' l l' A P H. unfold candidates.
  assert (E : forall x x', wwelt L x x' -> pt_eqb p (si (w_cur x)) = pt_eqb p' (si (w_cur x')) /\ pt_eqb p (sj (w_cur x)) = pt_eqb p' (sj (w_cur x')) /\ seg_eqb (w_cur x) akt = seg_eqb (w_cur x') akt').
  { intros x x' (_ & _ & C). split; [|split]; [apply (wpt_eq L); auto; apply C|apply (wpt_eq L); auto; apply C|apply (wseg_eq L); auto]. }
  assert (G : Forall2 (wwelt L) (filter (fun x => pt_eqb p (si (w_cur x)) && negb (seg_eqb (w_cur x) akt)) l) (filter (fun x => pt_eqb p' (si (w_cur x)) && negb (seg_eqb (w_cur x) akt')) l')).
  { apply rel_filter; [exact H|]. intros x y X. destruct (E x y X) as (-> & _ & ->). reflexivity. }
  destruct G as [|x y a b X G]; [|constructor; auto]. apply rel_filter; [exact H|]. intros x y X. destruct (E x y X) as (-> & -> & ->). reflexivity.
Qed.
Lemma rel_mem : forall L s s' l l', wseg L s s' -> wpoly L l l' -> memb seg_sameb s l = memb seg_sameb s' l'.
Proof. intros L s s' l l' X H. apply (rel_memb (wseg L)); auto. intros a b c d. apply (wseg_same L). Qed.
Lemma rel_add : forall L s s' l l', wseg L s s' -> wpoly L l l' -> wpoly L (set_add l s) (set_add (A := RA) l' s').
Proof. intros L s s' l l' X H. unfold set_add. rewrite (rel_mem L s s' l l' X H). destruct (memb _ _ _); [exact H|]. apply Forall2_app; [exact H|]. constructor; [exact X|constructor]. Qed.
Lemma rel_discard : forall L s s' l l', wseg L s s' -> Forall2 (wwelt L) l l' -> Forall2 (wwelt L) (discard s l) (discard (A := RA) s' l').
Proof.
  intros L s s' l l' X H. unfold discard. apply rel_filter; [exact H|]. intros x y (_ & K & C). f_equal. f_equal; [|apply (wseg_eq L); auto].
  unfold same_hash. destruct K as (_ & K1 & K2). destruct X as (_ & X1 & X2). rewrite (wpt_same L _ _ _ _ K1 X1), (wpt_same L _ _ _ _ K2 X2). reflexivity.
Qed.
Lemma rel_walk_segs : forall L s s' l l', wseg L s s' -> wpoly L l l' -> Forall2 (wmark L) (walk_segs l s) (walk_segs (A := RA) l' s').
Proof.
  intros L s s' l l' X H. unfold walk_segs. rewrite (rel_mem L s s' l l' X H). apply Forall2_app; [apply (rel_map (wseg L) (wmark L)); [exact H|]; intros a b Y; split; auto|].
  destruct (memb _ _ _); [constructor|]. constructor; [split; auto|constructor].
Qed.
Lemma rel_marked : forall L l l' o o' s s', Forall2 (wmark L) l l' -> wpoly L o o' -> wseg L s s' -> wseg L (marked l o s) (marked (A := RA) l' o' s').
Proof.
  intros L l l' o o' s s' H K X. unfold marked. pose proof (combine_rel (wseg L) (wmark L) o o' l l' K H) as C.
  assert (G : Forall2 (fun a b => wseg L (fst a) (fst b) /\ wmark L (snd a) (snd b)) (filter (fun '(_, (_, b)) => b) (combine o l)) (filter (fun '(_, (_, b)) => b) (combine o' l'))).
  { apply rel_filter; [exact C|]. intros [a [b c]] [a' [b' c']] [_ [_ M]]. exact M. }
  destruct G as [|[a b] [a' b'] u v [G _] _]; [exact X|exact G].
Qed.
Lemma fst_marks : forall L l l', Forall2 (wmark L) l l' -> wpoly L (map fst l) (map fst l').
Proof. intros L l l' H. apply (rel_map (wmark L) (wseg L)); [exact H|]. intros a b M. apply M. Qed.
Lemma plain_fair : fair (mksched (fun _ l => l) (fun _ l => l) : sched RA).
Proof. split; intros; simpl; auto. Qed.
Lemma walk_wh : forall L (sch : sched (FA L)), fair sch -> forall fuel k nv nv' vis vis' akt akt' p p' br,
  Forall2 (wwelt L) nv nv' -> wpoly L vis vis' -> wseg L akt akt' -> wpt L p p' ->
  exists sch', fair sch' /\ wwres L (walk_loop sch fuel k nv vis akt p br) (walk_loop (A := RA) sch' fuel k nv' vis' akt' p' br).
Proof.
  intros L sch [F1 F2]. induction fuel as [|f IH]; intros k nv nv' vis vis' akt akt' p p' br N V A P.
  - exists (mksched (fun _ l => l) (fun _ l => l)). split; [apply plain_fair|]. simpl. destruct N; simpl; auto.
  - assert (NE : nv = [] \/ nv <> []) by (destruct nv; [left; reflexivity|right; discriminate]). destruct NE as [->|NE].
    { inversion N; subst. exists (mksched (fun _ l => l) (fun _ l => l)). split; [apply plain_fair|]. simpl. auto. }
    assert (ST : forall (B : Arith) (s : sched B) (nv : list (welt B)) vis akt p, nv <> [] -> walk_loop s (S f) k nv vis akt p br =
      match candidates akt p (it_nv s k nv) with
      | [] => Ok NoLoop
      | nxt :: more =>
        match filter (fun x => negb (pt_eqb x p)) (ij (w_cur nxt)) with
        | [] => Err IndexError
        | q :: _ =>
          ' (ok, r) <- order (map fst (it_segs s k (walk_segs (set_add vis akt) (w_cur nxt)))) ;;
          closed <- (if ok then isclosed r else Ok false) ;;
          if ok && closed && negb (br || negb (Nat.eqb (length more) 0)) then Ok (Loop r)
          else
            walk_loop s f (S k)
              (map (fun x => if Nat.eqb (w_id x) (w_id nxt) then mkw (w_id x) (w_key x) (marked (it_segs s k (walk_segs (set_add vis akt) (w_cur nxt))) (order_objs (map fst (it_segs s k (walk_segs (set_add vis akt) (w_cur nxt))))) (w_cur nxt)) else x) (discard akt nv))
              (set_add vis akt) (w_cur nxt) q (br || negb (Nat.eqb (length more) 0))
        end
      end).
    { intros B s nw w1 w2 w3 NN. destruct nw; [contradiction|reflexivity]. }
    assert (NE' : nv' <> []) by (intros ->; inversion N; subst; contradiction).
    rewrite (ST _ _ _ _ _ _ NE). destruct (Permutation_Forall2 (Permutation_sym (F1 k nv)) N) as (m & M1 & M2).
    pose proof (rel_candidates L akt akt' p p' _ _ A P M2) as C. destruct (candidates akt p (it_nv sch k nv)) as [|nxt more] eqn:EC.
    { exists (aim k nv' m [] [] (mksched (fun _ l => l) (fun _ l => l))). split; [apply aim_fair; [apply Permutation_sym; exact M1|auto|apply plain_fair]|]. rewrite (ST _ _ _ _ _ _ NE'), (proj1 (aim_here k nv' m [] [] _)).
      inversion C. simpl. exact I. }
    destruct (candidates akt' p' m) as [|nxt' more'] eqn:EC'; [inversion C|]. inversion C as [|? ? ? ? CX CM]; subst. pose proof (rel_length _ _ _ CM) as LM.
    assert (FI : Forall2 (wpt L) (filter (fun x => negb (pt_eqb x p)) (ij (w_cur nxt))) (filter (fun x => negb (pt_eqb x p')) (ij (w_cur nxt')))).
    { apply rel_filter; [apply wseg_ij; apply CX|]. intros a b X. f_equal. apply (wpt_eq L); auto. }
    pose proof (rel_add L akt akt' vis vis' A V) as V1. assert (CX2 : wseg L (w_cur nxt) (w_cur nxt')) by apply CX. pose proof (rel_walk_segs L _ _ _ _ CX2 V1) as W.
    set (ws := walk_segs (set_add vis akt) (w_cur nxt)) in *. set (ws' := walk_segs (set_add vis' akt') (w_cur nxt')) in *.
    destruct (Permutation_Forall2 (Permutation_sym (F2 k ws)) W) as (n & N1 & N2). set (ls := it_segs sch k ws) in *.
    destruct (filter (fun x => negb (pt_eqb x p)) (ij (w_cur nxt))) as [|q qs], (filter (fun x => negb (pt_eqb x p')) (ij (w_cur nxt'))) as [|q' qs'] eqn:EF'; try solve [inversion FI].
    { exists (aim k nv' m [] [] (mksched (fun _ l => l) (fun _ l => l))). split; [apply aim_fair; [apply Permutation_sym; exact M1|auto|apply plain_fair]|]. rewrite (ST _ _ _ _ _ _ NE'), (proj1 (aim_here k nv' m [] [] _)), EC', EF'. reflexivity. }
    assert (Q : wpt L q q') by (inversion FI; auto). pose proof (fst_marks L _ _ N2) as O. pose proof (rel_marked L _ _ _ _ _ _ N2 (objs_wh L _ _ O) CX2) as MK.
    set (cur := marked ls (order_objs (map fst ls)) (w_cur nxt)) in *. set (cur' := marked n (order_objs (map fst n)) (w_cur nxt')) in *.
    assert (NV : Forall2 (wwelt L) (map (fun x => if Nat.eqb (w_id x) (w_id nxt) then mkw (w_id x) (w_key x) cur else x) (discard akt nv)) (map (fun x => if Nat.eqb (w_id x) (w_id nxt') then mkw (w_id x) (w_key x) cur' else x) (discard akt' nv'))).
    { apply (rel_map (wwelt L) (wwelt L)); [apply rel_discard; auto|]. intros x y (I1 & I2 & I3). rewrite I1, (proj1 CX). destruct (Nat.eqb (w_id y) (w_id nxt')); split; auto. }
    destruct (IH (S k) _ _ _ _ _ _ _ _ (br || negb (Nat.eqb (length more) 0)) NV V1 CX2 Q) as (sch' & FS & R).
    exists (aim k nv' m ws' n sch'). split; [apply aim_fair; [apply Permutation_sym; exact M1|apply Permutation_sym; exact N1|exact FS]|].
    rewrite (ST _ _ _ _ _ _ NE'), (proj1 (aim_here k nv' m ws' n sch')), EC', EF'. fold ws'. rewrite (proj2 (aim_here k nv' m ws' n sch')). fold cur'. rewrite <- LM.
    pose proof (order_wh L _ _ O) as OW. destruct (order (map fst ls)) as [[ok r]|e], (order (map fst n)) as [[ok' r']|e']; try contradiction; cbn [bind]; [|exact OW]. destruct OW as [<- OW].
    assert (CL : (if ok then isclosed r else Ok false) = (if ok then isclosed r' else Ok false)) by (destruct ok; [apply (epoly_closed L); apply wpoly_epoly; exact OW|reflexivity]).
    rewrite CL. destruct (if ok then isclosed r' else Ok false) as [cl|e]; cbn [bind]; [|reflexivity]. destruct (ok && cl && negb _); [exact OW|].
    rewrite (walk_ext RA (aim k nv' m ws' n sch') sch'); [exact R|]. intros j x y J. apply aim_else. lia.
Qed.
Lemma rel_number : forall {X Y} (Q : X -> Y -> Prop) l l' k, Forall2 Q l l' -> Forall2 (fun a b => fst a = fst b /\ Q (snd a) (snd b)) (number k l) (number k l').
Proof. intros X Y Q l l' k H. revert k. induction H as [|x y l l' H _ IH]; intros k; simpl; constructor; auto. Qed.
Lemma init_wh : forall L l l', wpoly L l l' -> Forall2 (wwelt L) (nv_init l) (nv_init (A := RA) l').
Proof.
  intros L l l' H. unfold nv_init. apply (rel_map (fun a b => fst a = fst b /\ wseg L (snd a) (snd b)) (wwelt L)).
  - apply (rel_number (wseg L)). apply rel_dedup; [|exact H]. intros a b c d. apply (wseg_same L).
  - intros [k s] [k' s'] [E X]. simpl in *. subst k'. split; auto.
Qed.
Lemma segments_wh : forall L (sch : sched (FA L)) fuel l l' q q', fair sch -> wpoly L l l' ->
  match q, q' with Some p, Some p' => wpt L p p' | None, None => True | _, _ => False end ->
  exists sch', fair sch' /\ wwres L (walk_segments sch fuel l q) (walk_segments (A := RA) sch' fuel l' q').
Proof.
  intros L sch fuel l l' q q' F H Q. unfold walk_segments.
  assert (ST : match (match q with Some p => Ok p | None => s <- get l 0 ;; Ok (si s) end), (match q' with Some p => Ok p | None => s <- get l' 0 ;; Ok (si s) end) with
               | Ok p, Ok p' => wpt L p p' | Err e, Err e' => e = e' | _, _ => False end).
  { destruct q as [p|], q' as [p'|]; try contradiction; [exact Q|]. destruct H as [|x y l l' X H]; [reflexivity|]. apply X. }
  destruct (match q with Some p => Ok p | None => _ end) as [p|e], (match q' with Some p => Ok p | None => _ end) as [p'|e']; try contradiction; cbn [bind].
  2: { exists (mksched (fun _ l => l) (fun _ l => l)). split; [apply plain_fair|exact ST]. }
  pose proof (init_wh L l l' H) as I. destruct (Permutation_Forall2 (Permutation_sym (proj1 F 0%nat (nv_init l))) I) as (m & M1 & M2).
  assert (G : Forall2 (wwelt L) (filter (fun x => pt_eqb p (si (w_cur x))) (it_nv sch 0 (nv_init l))) (filter (fun x => pt_eqb p' (si (w_cur x))) m)).
  { apply rel_filter; [exact M2|]. intros x y (_ & _ & C). apply (wpt_eq L); auto. apply C. }
  destruct (filter _ (it_nv sch 0 (nv_init l))) as [|a r], (filter _ m) as [|a' r'] eqn:EF; try solve [inversion G].
  - exists (aim 0 (nv_init l') m [] [] (mksched (fun _ l => l) (fun _ l => l))). split; [apply aim_fair; [apply Permutation_sym; exact M1|auto|apply plain_fair]|].
    rewrite (proj1 (aim_here 0 (nv_init l') m [] [] _)), EF. reflexivity.
  - assert (X : wseg L (w_cur a) (w_cur a')) by (inversion G; subst; match goal with K : wwelt _ a a' |- _ => apply K end).
    destruct (walk_wh L sch F fuel 1 _ _ [w_cur a] [w_cur a'] _ _ p p' false I ltac:(constructor; [exact X|constructor]) X ST) as (sch' & FS & R).
    exists (aim 0 (nv_init l') m [] [] sch'). split; [apply aim_fair; [apply Permutation_sym; exact M1|auto|exact FS]|]. rewrite (proj1 (aim_here 0 (nv_init l') m [] [] _)), EF.
    rewrite (walk_ext RA (aim 0 (nv_init l') m [] [] sch') sch'); [exact R|]. intros j x y J. apply aim_else. lia.
Qed.
Definition wround L (r : res (option (lstate (FA L)))) (r' : res (option (lstate RA))) : Prop :=
  match r, r' with Ok (Some a), Ok (Some b) => wstate L a b | Ok None, Ok None => True | Err e, Err e' => e = e' | _, _ => False end.
Lemma rounds_ext : forall (A : Arith) (s s' : nat -> sched A) wf fuel st, (forall j, (j <= fuel)%nat -> s j = s' j) -> walk_rounds s wf fuel st = walk_rounds s' wf fuel st.
Proof.
  intros A s s' wf. induction fuel as [|f IH]; intros st E; cbn [walk_rounds]; rewrite (E _ (Nat.le_refl _)); [reflexivity|]. destruct (walk_segments _ _ _ _) as [[| |p]|e]; try reflexivity. cbn [bind]. destruct (in_cycles _ _ _); [reflexivity|]. apply IH. auto.
Qed.
Lemma rounds_wh : forall L (schs : nat -> sched (FA L)) wf, (forall k, fair (schs k)) -> forall fuel a b, wstate L a b ->
  exists schs', (forall k, fair (schs' k)) /\ wround L (walk_rounds schs wf fuel a) (walk_rounds (A := RA) schs' wf fuel b).
Proof.
  intros L schs wf F. induction fuel as [|f IH]; intros a b H; destruct H as (H & G & C).
  - destruct (segments_wh L (schs 0%nat) wf _ _ None None (F 0%nat) (value_wh L _ _ (l_graph a) H) Logic.I) as (s & FS & R). exists (fun _ => s). split; [auto|]. cbn [walk_rounds]. rewrite <- G. 
    destruct (walk_segments (schs 0%nat) wf (value (l_heap a) (l_graph a)) None) as [[| |p]|e], (walk_segments s wf (value (l_heap b) (l_graph a)) None) as [[| |p']|e']; try contradiction; cbn [bind]; auto; [split; auto|].
    rewrite <- C, (cycles_wh L _ _ _ _ _ H R). destruct (in_cycles _ _ _); [split; auto|exact Logic.I].
  - destruct (segments_wh L (schs (S f)) wf _ _ None None (F (S f)) (value_wh L _ _ (l_graph a) H) Logic.I) as (s & FS & R).
    assert (D : wround L (walk_rounds schs wf (S f) a) (walk_rounds (A := RA) (fun _ => s) wf (S f) b) \/
      exists p p', wpoly L p p' /\ walk_segments (schs (S f)) wf (value (l_heap a) (l_graph a)) None = Ok (Loop p) /\ walk_segments s wf (value (l_heap b) (l_graph b)) None = Ok (Loop p') /\
        in_cycles (l_heap a) (l_cycles a) p = false /\ in_cycles (l_heap b) (l_cycles b) p' = false).
    { rewrite <- G. cbn [walk_rounds]. rewrite <- G.
      destruct (walk_segments (schs (S f)) wf (value (l_heap a) (l_graph a)) None) as [[| |p]|e], (walk_segments s wf (value (l_heap b) (l_graph a)) None) as [[| |p']|e']; try contradiction; cbn [bind]; auto; [left; split; auto|].
      pose proof (cycles_wh L _ _ (l_cycles a) _ _ H R) as K. rewrite C in K at 2. destruct (in_cycles (l_heap b) (l_cycles b) p') eqn:E.
      - left. rewrite K. split; auto.
      - right. exists p, p'. auto. }
    destruct D as [D|(p & p' & P & E1 & E2 & E3 & E4)]; [exists (fun _ => s); auto|].
    pose proof (rel_length _ _ _ H) as LH. pose proof (rel_length _ _ _ P) as LP. assert (HP : wpoly L (l_heap a ++ p) (l_heap b ++ p')) by (apply Forall2_app; auto).
    destruct (IH (mkl (l_heap a ++ p) (filter (fun x => negb (used_by (l_heap a ++ p) (seq (length (l_heap a)) (length p)) x)) (l_graph a)) (l_cycles a ++ [seq (length (l_heap a)) (length p)]))
                 (mkl (l_heap b ++ p') (filter (fun x => negb (used_by (l_heap b ++ p') (seq (length (l_heap b)) (length p')) x)) (l_graph b)) (l_cycles b ++ [seq (length (l_heap b)) (length p')]))) as (ss & FF & RR).
    { rewrite <- LH, <- LP, <- G, <- C, (filter_used L _ _ _ _ HP). split; auto. }
    exists (fun j => if Nat.eqb j (S f) then s else ss j). split; [intros k; destruct (Nat.eqb k (S f)); auto|].
    cbn [walk_rounds]. rewrite Nat.eqb_refl, E1, E2. cbn [bind]. rewrite E3, E4. cbv zeta. rewrite (rounds_ext RA (fun j => if Nat.eqb j (S f) then s else ss j) ss); [exact RR|].
    intros j J. destruct (Nat.eqb_spec j (S f)); [lia|reflexivity].
Qed.
Lemma loops_wh : forall L (schs : nat -> sched (FA L)) wf fuel g g', (forall k, fair (schs k)) -> wpoly L g g' ->
  exists schs', (forall k, fair (schs' k)) /\
    match find_loops schs wf fuel g, find_loops (A := RA) schs' wf fuel g' with
    | Ok (Some (cs, h)), Ok (Some (cs', h')) => cs = cs' /\ wpoly L h h' | Ok None, Ok None => True | Err e, Err e' => e = e' | _, _ => False end.
Proof.
  intros L schs wf fuel g g' F H. destruct (rounds_wh L schs wf F fuel (mkl g (seq 0 (length g)) []) (mkl g' (seq 0 (length g')) [])) as (ss & FF & R).
  { split; [exact H|]. simpl. rewrite (rel_length _ _ _ H). auto. }
  exists ss. split; [exact FF|]. unfold find_loops. destruct (walk_rounds schs wf fuel _) as [[a|]|e], (walk_rounds ss wf fuel _) as [[b|]|e']; try contradiction; cbn [bind]; [|exact Logic.I|exact R].
  destruct R as (R & G & C). rewrite G. pose proof (comb_wh L (length (l_graph b)) 1 a b ltac:(split; auto)) as Q. destruct (comb_rounds _ 1 a) as [a1|e], (comb_rounds _ 1 b) as [b1|e']; try contradiction; cbn [bind]; [|exact Q].
  destruct Q as (Q1 & Q2 & Q3). rewrite Q3. auto.
Qed.

(** * The program as it runs *)
Lemma wpoly_exact : forall L l l', wpoly L l l' -> exact_segs l l'.
Proof. intros L l l' H. induction H as [|s t l l' (C & [E1 _] & [E2 _]) _ IH]; constructor; [split; auto|exact IH]. Qed.
(*@ C92_order *)
(** C92: order() of the running program is order() of the exact one, on whole coordinates up to 2000: the
    same answer, and the same segments in the same order and directions. *)
Lemma order_whole : forall L (l : list (seg (FA L))) (l' : list (seg RA)), exact_segs l l' -> Forall whole_seg l' ->
  same_answer (fun a b => fst a = fst b /\ exact_segs (snd a) (snd b)) (order l) (order l').
Proof.
  intros L l l' E W. pose proof (order_wh L l l' (wpoly_intro L l l' E W)) as Q. destruct (order l) as [[b r]|e], (order l') as [[b' r']|e']; try contradiction; simpl; [|exact Q]. destruct Q as [-> Q]. split; [reflexivity|]. apply wpoly_exact. exact Q.
Qed.
(*@ C92_walk *)
(** C92: whatever the order in which Python visits the sets, there is an order for which the exact
    walk_segments does the same as the running one. *)
Lemma walk_whole : forall L (sch : sched (FA L)) fuel (l : list (seg (FA L))) (l' : list (seg RA)), fair sch -> exact_segs l l' -> Forall whole_seg l' ->
  exists sch' : sched RA, fair sch' /\ same_answer exact_walk (walk_segments sch fuel l None) (walk_segments sch' fuel l' None).
Proof.
  intros L sch fuel l l' F E W. destruct (segments_wh L sch fuel l l' None None F (wpoly_intro L l l' E W) I) as (s & FS & Q). exists s. split; [exact FS|].
  destruct (walk_segments sch fuel l None) as [[| |r]|e], (walk_segments s fuel l' None) as [[| |r']|e']; try contradiction; simpl; auto. apply wpoly_exact. exact Q.
Qed.
(*@ C92_find_loops *)
(** C92: the same for find_loops: what it returns, and what it leaves of the segments, is what the exact
    find_loops returns and leaves for some order of the sets. *)
Lemma find_loops_whole : forall L (schs : nat -> sched (FA L)) wf fuel (g : list (seg (FA L))) (g' : list (seg RA)), (forall k, fair (schs k)) -> exact_segs g g' -> Forall whole_seg g' ->
  exists schs' : nat -> sched RA, (forall k, fair (schs' k)) /\ same_answer exact_loops (find_loops schs wf fuel g) (find_loops schs' wf fuel g').
Proof.
  intros L schs wf fuel g g' F E W. destruct (loops_wh L schs wf fuel g g' F (wpoly_intro L g g' E W)) as (s & FS & Q). exists s. split; [exact FS|].
  destruct (find_loops schs wf fuel g) as [[[cs h]|]|e], (find_loops s wf fuel g') as [[[cs' h']|]|e']; try contradiction; simpl; auto. destruct Q as [-> Q]. split; [reflexivity|]. apply wpoly_exact. exact Q.
Qed.
Lemma whole_separated : forall ps : list (pt RA), Forall (lattice 2000) ps -> separated ps.
Proof.
  intros ps W p q P Q A B. rewrite Forall_forall in W. destruct (dyadic_clear p q (lattice_dyadic p (W p P)) (lattice_dyadic q (W q Q))) as [E|[E|E]]; [exact E|lra|lra].
Qed.
Lemma whole_points : forall g : list (seg RA), Forall whole_seg g -> Forall (lattice 2000) (flat_map ij g).
Proof. intros g W. induction W as [|s g [A B] _ IH]; [constructor|]. simpl. auto. Qed.
(*@ C92_order_cycle *)
(** C92 (C31 for the running program): given the edges of a cycle through 3 to 249 different points with
    whole coordinates, in any order and with any directions, order() of the running program returns True
    and the cycle, closed, starting at the corner nearest to the origin. *)
Lemma order_cycle_whole : forall L (vs : list (pt RA)) (given : list (seg (FA L))) (given' cyc : list (seg RA)),
  (3 <= length vs < 250)%nat -> NoDup vs -> Forall (lattice 2000) vs -> Forall2 joins (cycle_edges vs) cyc -> Permutation given' cyc -> exact_segs given given' ->
  exists us r r', order given = Ok (true, r) /\ exact_segs r r' /\ rearranged r' given' /\ Permutation us vs /\ map (fun s => (si s, sj s)) r' = cycle_edges us /\
    iscontinuous r = true /\ isclosed r = Ok true /\ (forall v w, In v vs -> nth_error us 0 = Some w -> nearer_origin w v).
Proof.
  intros L vs given given' cyc N ND W J P E. destruct (order_spec vs given' cyc N ND (whole_separated vs W) J P) as (us & r' & O & RR & PU & M & C1 & C2 & NE).
  assert (WG : Forall whole_seg given').
  { apply Forall_forall. intros s I. apply (Permutation_in _ P) in I. assert (K : forall v, In v vs -> lattice 2000 v) by (apply Forall_forall; exact W). clear - J I K.
    assert (V : forall e, In e (cycle_edges vs) -> In (fst e) vs /\ In (snd e) vs).
    { intros [a b] H. unfold cycle_edges in H. destruct vs as [|v r]; [destruct H|]. split; [apply (in_combine_l _ _ _ _ H)|]. apply in_combine_r in H. apply in_app_or in H. destruct H as [H|[<-|[]]]; [right; exact H|left; reflexivity]. }
    induction J as [|e s' es ss J _ IH]; [destruct I|]. destruct I as [->|I]; [|apply IH; auto; intros; apply V; right; auto]. destruct (V e (or_introl eq_refl)) as [V1 V2]. destruct J as [[J1 J2]|[J1 J2]]; split; rewrite ?J1, ?J2; auto. }
  pose proof (order_wh L given given' (wpoly_intro L _ _ E WG)) as Q. rewrite O in Q. destruct (order given) as [[b r]|e]; [|contradiction]. destruct Q as [-> Q].
  exists us, r, r'. split; [reflexivity|]. split; [apply wpoly_exact; exact Q|]. split; [exact RR|]. split; [exact PU|]. split; [exact M|]. split; [rewrite (epoly_continuous L r r' (wpoly_epoly L r r' Q)); exact C1|].
  split; [rewrite (proj1 (epoly_closed L r r' (wpoly_epoly L r r' Q))); exact C2|exact NE].
Qed.
Lemma noloop_start : forall (A : Arith) (schs : nat -> sched A) wf fuel g, walk_segments (schs fuel) wf g None = Ok NoLoop ->
  find_loops schs wf fuel g = (st' <- comb_rounds (length (seq 0 (length g))) 1 (mkl g (seq 0 (length g)) []) ;; Ok (Some (sort_by (fun a b => Nat.ltb (length a) (length b)) (l_cycles st'), l_heap st'))).
Proof.
  intros A schs wf fuel g E. unfold find_loops. assert (V : value g (seq 0 (length g)) = g) by (apply (value_seq g [])). destruct fuel as [|f]; cbn [walk_rounds l_heap l_graph l_cycles]; rewrite V, E; reflexivity.
Qed.
(*@ C92_no_loop_missed *)
(** C92 (C91 for the running program): when walking along the segments finds no loop first, the running
    find_loops returns exactly the loops of the graph that do not cross themselves. *)
Lemma no_loop_missed_whole : forall L (schs : nat -> sched (FA L)) wf fuel (g : list (seg (FA L))) (g' : list (seg RA)),
  (forall k, fair (schs k)) -> exact_segs g g' -> Forall whole_seg g' -> simple_graph g' -> (length g < 250)%nat -> walk_segments (schs fuel) wf g None = Ok NoLoop ->
  exists cs h, find_loops schs wf fuel g = Ok (Some (cs, h)) /\
    (forall l, loop_in g' l -> uncrossed l -> exists c v, In c cs /\ exact_segs (value h c) v /\ rearranged v l) /\
    (forall c, In c cs -> exists l v, loop_in g' l /\ uncrossed l /\ exact_segs (value h c) v /\ rearranged v l).
Proof.
  intros L schs wf fuel g g' F E W SG N NL. pose proof (wpoly_intro L g g' E W) as H. destruct (segments_wh L (schs fuel) wf g g' None None (F fuel) H I) as (s & FS & Q). rewrite NL in Q.
  assert (NL' : walk_segments s wf g' None = Ok NoLoop) by (destruct (walk_segments s wf g' None) as [[| |?]|?]; try contradiction; reflexivity). pose proof (rel_length _ _ _ H) as Len.
  destruct (no_loop_missed (fun _ => s) wf fuel g' SG ltac:(rewrite <- Len; exact N) NL') as (cs & h' & EF & ALL & ONLY).
  rewrite (noloop_start RA (fun _ => s) wf fuel g' NL') in EF. rewrite (noloop_start (FA L) schs wf fuel g NL), Len.
  pose proof (comb_wh L (length (seq 0 (length g'))) 1 (mkl g (seq 0 (length g')) []) (mkl g' (seq 0 (length g')) []) ltac:(split; auto)) as C.
  destruct (comb_rounds _ 1 (mkl g (seq 0 (length g')) [])) as [a|e], (comb_rounds _ 1 (mkl g' (seq 0 (length g')) [])) as [b|e']; try contradiction; [|discriminate]. cbn [bind] in *. injection EF as EF1 EF2.
  destruct C as (C1 & _ & C3). exists cs, (l_heap a). split; [rewrite C3, <- EF1; reflexivity|]. split.
  - intros l LI UN. destruct (ALL l LI UN) as (c & I1 & I2). exists c, (value h' c). split; [exact I1|]. split; [apply wpoly_exact; apply value_wh; rewrite <- EF2; exact C1|exact I2].
  - intros c I1. destruct (ONLY c I1) as (l & LI & UN & RE). exists l, (value h' c). split; [exact LI|]. split; [exact UN|]. split; [apply wpoly_exact; apply value_wh; rewrite <- EF2; exact C1|exact RE].
Qed.
(*@ C92_missed_only_shared *)
(** C92: and in general a loop that does not cross itself is among the results of the running find_loops
    or shares a wall with a result that was found by walking. *)
Lemma missed_only_shared_whole : forall L (schs : nat -> sched (FA L)) wf fuel (g : list (seg (FA L))) (g' : list (seg RA)) cs h,
  (forall k, fair (schs k)) -> exact_segs g g' -> Forall whole_seg g' -> simple_graph g' -> (length g < 250)%nat -> find_loops schs wf fuel g = Ok (Some (cs, h)) ->
  exists h', exact_segs h h' /\ forall l, loop_in g' l -> uncrossed l ->
    (exists c, In c cs /\ rearranged (value h' c) l) \/
    (exists c s t, In c cs /\ (forall k, In k c -> (length g <= k)%nat) /\ In s (value h' c) /\ In t l /\ ((si s = si t /\ sj s = sj t) \/ (si s = sj t /\ sj s = si t))).
Proof.
  intros L schs wf fuel g g' cs h F E W SG N EF. pose proof (wpoly_intro L g g' E W) as H. pose proof (rel_length _ _ _ H) as Len. destruct (loops_wh L schs wf fuel g g' F H) as (s & FS & Q). rewrite EF in Q.
  destruct (find_loops s wf fuel g') as [[[cs' h']|]|e'] eqn:EF'; try contradiction. destruct Q as [<- Q]. exists h'. split; [apply wpoly_exact; exact Q|]. intros l LI UN. rewrite Len. rewrite Len in N.
  apply (missed_only_shared s wf fuel g' cs h' FS SG N EF' l LI UN).
Qed.
(*@ C92_dead_end *)
(** C92: the running walk_segments finds no loop first if the first segment starts at a dead end. *)
Lemma dead_end_whole : forall L (sch : sched (FA L)) wf (g : list (seg (FA L))) (g' : list (seg RA)) s r, fair sch -> (0 < wf)%nat -> exact_segs g g' -> Forall whole_seg g' -> g' = s :: r ->
  (forall t, In t r -> si t <> si s /\ sj t <> si s) -> walk_segments sch wf g None = Ok NoLoop.
Proof.
  intros L sch wf g g' s r F WF E W EG D. destruct (segments_wh L sch wf g g' None None F (wpoly_intro L g g' E W) I) as (s' & FS & Q).
  rewrite (dead_end s' wf g' s r FS WF EG (whole_separated _ (whole_points g' W)) D) in Q. destruct (walk_segments sch wf g None) as [[| |?]|?]; try contradiction. reflexivity.
Qed.
Lemma cycle_whole : forall (vs : list (pt RA)) (l : list (seg RA)), Forall (lattice 2000) vs -> directed_cycle vs l -> Forall whole_seg l.
Proof.
  intros vs l W (cyc & P & M). apply Forall_forall. intros s I. apply (Permutation_in _ P) in I. assert (K : In (si s, sj s) (cycle_edges vs)) by (rewrite <- M; apply (in_map (fun s => (si s, sj s))); exact I).
  rewrite Forall_forall in W. unfold cycle_edges in K. destruct vs as [|v r]; [destruct K|]. split; [apply W; apply (in_combine_l _ _ _ _ K)|]. apply W. apply in_combine_r in K. apply in_app_or in K. destruct K as [K|[<-|[]]]; [right; exact K|left; reflexivity].
Qed.
(*@ C92_walk_finds *)
(** C92 (C46 for the running program): given the edges of one cycle through 3 to 249 points with whole
    coordinates, all running the same way round, the running walk_segments returns the cycle. *)
Lemma walk_finds_whole : forall L (vs : list (pt RA)) (given : list (seg (FA L))) (given' : list (seg RA)) (sch : sched (FA L)) fuel,
  (3 <= length vs < 250)%nat -> NoDup vs -> Forall (lattice 2000) vs -> directed_cycle vs given' -> exact_segs given given' -> fair sch -> (length vs <= fuel)%nat ->
  exists us r r', walk_segments sch fuel given None = Ok (Loop r) /\ exact_segs r r' /\ Permutation r' given' /\ Permutation us vs /\ map (fun s => (si s, sj s)) r' = cycle_edges us /\ isclosed r = Ok true.
Proof.
  intros L vs given given' sch fuel N ND W D E F FU. destruct (segments_wh L sch fuel given given' None None F (wpoly_intro L _ _ E (cycle_whole vs given' W D)) I) as (s & FS & Q).
  destruct (walk_finds vs given' s fuel N ND (whole_separated vs W) D FS FU) as (us & r' & EW & P1 & P2 & M & C). rewrite EW in Q. destruct (walk_segments sch fuel given None) as [[| |r]|e]; try contradiction.
  exists us, r, r'. split; [reflexivity|]. split; [apply wpoly_exact; exact Q|]. split; [exact P1|]. split; [exact P2|]. split; [exact M|]. rewrite (proj1 (epoly_closed L r r' (wpoly_epoly L r r' Q))). exact C.
Qed.
(*@ C92_single_loop_refuted *)
(** C92, finding: so the running find_loops raises an IndexError for every vessel whose segments are the
    edges of one such cycle, whatever the order of the sets. *)
Lemma single_loop_whole : forall L (vs : list (pt RA)) (graph : list (seg (FA L))) (graph' : list (seg RA)) (schs : nat -> sched (FA L)) wf fuel,
  (3 <= length vs < 250)%nat -> NoDup vs -> Forall (lattice 2000) vs -> directed_cycle vs graph' -> exact_segs graph graph' -> (forall k, fair (schs k)) -> (length vs <= wf)%nat -> (0 < fuel)%nat ->
  find_loops schs wf fuel graph = Err IndexError.
Proof.
  intros L vs graph graph' schs wf fuel N ND W D E F LW FU. destruct (loops_wh L schs wf fuel graph graph' F (wpoly_intro L _ _ E (cycle_whole vs graph' W D))) as (s & FS & Q).
  rewrite (single_loop vs graph' s wf fuel N ND (whole_separated vs W) D FS LW FU) in Q. destruct (find_loops schs wf fuel graph) as [[[? ?]|]|e]; try contradiction. rewrite Q. reflexivity.
Qed.

(** * Groups *)
Lemma wpoly_points : forall L l l', wpoly L l l' -> Forall2 (wpt L) (point_set l) (point_set (A := RA) l').
Proof.
  intros L l l' H. unfold point_set, all_points. assert (X : forall a b c d, wpt L a b -> wpt L c d -> lex_ltb a c = lex_ltb b d) by (intros a b c d A C; apply (ept_lex L); apply wpt_ept; auto).
  apply rel_sort; [exact X|]. apply rel_dedup; [intros a b c d; apply (wpt_same L)|]. apply rel_sort; [exact X|]. apply points_wh. exact H.
Qed.
Lemma neighbour_wh : forall L l l' p p', wpoly L l l' -> wpt L p p' -> Forall2 (wpt L) (neighbour l p) (neighbour (A := RA) l' p').
Proof.
  intros L l l' p p' H P. assert (Q : forall s s', wseg L s s' -> existsb (pt_eqb p) (ij s) = existsb (pt_eqb p') (ij s')).
  { intros s s' X. apply (rel_existsb (wpt L)); [apply wseg_ij; exact X|]. intros a b Y. apply (wpt_eq L); auto. }
  assert (FS : wpoly L (find_segment_by_point l p WBoth) (find_segment_by_point (A := RA) l' p' WBoth)) by (unfold find_segment_by_point; apply rel_filter; [apply rel_filter|]; auto).
  unfold neighbour. cbv zeta. assert (NB : forall a b, wpt L a b -> pt_neb a p = pt_neb b p').
  { intros a b X. unfold pt_neb. f_equal. apply (wpt_eq L); auto. }
  apply Forall2_app; (apply rel_filter; [|exact NB]); apply (rel_map (wseg L) (wpt L)); auto; intros x y (_ & X1 & X2); auto.
Qed.
Lemma nd_wh : forall L l l' n, wpoly L l l' -> nd l n = nd (A := RA) l' n.
Proof.
  intros L l l' n H. unfold nd, adjacency. apply (rel_length (fun a b => length (snd a) = length (snd b))). apply rel_filter.
  - apply (rel_map (wpt L) (fun a b => length (snd a) = length (snd b))); [apply wpoly_points; exact H|]. intros p p' P. simpl. apply (rel_length (wpt L)). apply neighbour_wh; auto.
  - intros a b ->. reflexivity.
Qed.
Lemma degrees_wh : forall L l l', wpoly L l l' -> degrees_ok l = degrees_ok (A := RA) l'.
Proof.
  intros L l l' H. unfold degrees_ok. rewrite !(fun n => nd_wh L l l' n H). cbn [seq existsb]. rewrite !(fun n => nd_wh L l l' n H). reflexivity.
Qed.
(*@ C92_group *)
(** C92 (C47 for the running program): a group of polygons with whole coordinates is valid for the running
    program exactly if it is valid for the exact one, i.e. by C47 if the degree rules hold for its segments
    and every polygon is valid. *)
Lemma group_whole : forall L (ps : list (list (seg (FA L)))) (ps' : list (list (seg RA))) (l : list (seg (FA L))) (l' : list (seg RA)),
  Forall2 exact_segs ps ps' -> Forall (Forall whole_seg) ps' -> exact_segs l l' -> Forall whole_seg l' -> group_isvalid ps l = group_isvalid ps' l'.
Proof.
  intros L ps ps' l l' E W EL WL. unfold group_isvalid. rewrite (degrees_wh L l l' (wpoly_intro L l l' EL WL)). destruct (degrees_ok l'); [|reflexivity].
  assert (M : mapM poly_isvalid ps = mapM poly_isvalid ps').
  { clear - E W. induction E as [|p p' ps ps' E _ IH]; [reflexivity|]. inversion W; subst. cbn [mapM]. rewrite (valid_wh L p p' (wpoly_intro L p p' E H1)). rewrite IH; auto. }
  rewrite M. reflexivity.
Qed.
Lemma int_point : forall L a b, (Z.abs a <= 2000)%Z -> (Z.abs b <= 2000)%Z -> exact_pt (Point_new (A := FA L) (nofZ a) (nofZ b)) (@mkpt RA (IZR a) (IZR b)) /\ lattice 2000 (@mkpt RA (IZR a) (IZR b)).
Proof.
  intros L a b A B. destruct (points_whole L [(a, b)] ltac:(constructor; [auto|constructor])) as (E & W & _ & _ & Z). rewrite Z in E, W. simpl in E, W. inversion E; subst. inversion W; subst. auto.
Qed.
(*@ C92_segments *)
(** C92: segments made of integers up to 2000 are those integers, in the program and exactly: the hypotheses
    of the theorems above hold for every graph of such segments. *)
Lemma segments_whole : forall L (ds : list (Z * Z * Z * Z)),
  Forall (fun '(a, b, c, d) => (Z.abs a <= 2000 /\ Z.abs b <= 2000 /\ Z.abs c <= 2000 /\ Z.abs d <= 2000)%Z) ds ->
  let g := map (fun '(a, b, c, d) => LineSegment (Point_new (nofZ a) (nofZ b)) (Point_new (nofZ c) (nofZ d)) : seg (FA L)) ds in
  let g' := map (fun '(a, b, c, d) => LineSegment (@mkpt RA (IZR a) (IZR b)) (@mkpt RA (IZR c) (IZR d))) ds in
  exact_segs g g' /\ Forall whole_seg g'.
Proof.
  intros L ds H g g'. unfold g, g'. clear g g'. induction H as [|[[[a b] c] d] ds (A & B & C & D) _ [IH1 IH2]]; [split; constructor|]. destruct (int_point L a b A B) as [E1 W1]. destruct (int_point L c d C D) as [E2 W2].
  split; simpl; (constructor; [|assumption]); [split; [reflexivity|split; assumption]|split; assumption].
Qed.
(*@ex C92_example *)
(** C92: the two rooms with a dead end of C91_example, as doubles, meet the hypotheses. *)
Lemma whole_loops_example : forall L : Libm,
  let ds := [(-9, 0, 0, 0); (0, 0, 4, 0); (4, 4, 4, 0); (4, 4, 0, 4); (0, 4, 0, 0); (0, 0, 4, 4)]%Z in
  let g := map (fun '(a, b, c, d) => LineSegment (Point_new (nofZ a) (nofZ b)) (Point_new (nofZ c) (nofZ d)) : seg (FA L)) ds in
  let g' := map (fun '(a, b, c, d) => LineSegment (@mkpt RA (IZR a) (IZR b)) (@mkpt RA (IZR c) (IZR d))) ds in
  exact_segs g g' /\ Forall whole_seg g' /\ simple_graph g' /\ (forall sch, fair sch -> walk_segments sch 5 g None = Ok NoLoop).
Proof.
  intros L ds g g'. destruct (segments_whole L ds) as [E W]; [unfold ds; repeat (constructor; [lia|]); constructor|]. split; [exact E|]. split; [exact W|]. split; [apply (zseg_simple ds); reflexivity|].
  intros sch F. apply (dead_end_whole L sch 5 g g' (zseg (-9) 0 0 0) (tl g') F ltac:(lia) E W eq_refl). intros t T.
  assert (PN : forall a b : Z, (-9 < a)%Z -> @mkpt RA (IZR a) (IZR b) <> @mkpt RA (IZR (-9)) (IZR 0)) by (intros a b N X; injection X as X _; apply eq_IZR in X; lia).
  simpl in T. repeat (destruct T as [<-|T]; [split; apply PN; lia|]). destruct T.
Qed.
(*@ C46_start_refused *)
(** C46: walk_segments raises an IndexError for a starting point at which no segment starts (in any
    arithmetic, for any order of the sets), also if segments end there. *)
Lemma start_refused : forall (A : Arith) (sch : sched A) fuel given p, fair sch -> (forall s, In s given -> pt_eqb p (si s) = false) ->
  walk_segments sch fuel given (Some p) = Err IndexError.
Proof.
  intros A sch fuel given p F H. unfold walk_segments. cbn [bind]. assert (E : filter (fun x => pt_eqb p (si (w_cur x))) (it_nv sch 0 (nv_init given)) = []).
  { destruct (filter _ (it_nv sch 0 (nv_init given))) as [|x l] eqn:E; [reflexivity|exfalso]. assert (I : In x (filter (fun x => pt_eqb p (si (w_cur x))) (it_nv sch 0 (nv_init given)))) by (rewrite E; left; reflexivity).
    apply filter_In in I. destruct I as [I T]. apply (Permutation_in _ (proj1 F 0%nat (nv_init given))) in I. unfold nv_init in I. apply in_map_iff in I. destruct I as ([k s] & <- & I). simpl in T.
    assert (G : forall (l : list (seg A)) n, In (k, s) (number n l) -> In s l).
    { clear. intros l. induction l as [|y l IH]; intros n J.
      - destruct J.
      - simpl in J. destruct J as [J|J]; [left; congruence|right; apply (IH (S n)); exact J]. }
    apply G in I. rewrite (H s) in T; [discriminate|]. eapply dedup_incl. exact I. }
  rewrite E. reflexivity.
Qed.
