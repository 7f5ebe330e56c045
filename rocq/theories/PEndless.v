(** walk_segments need not end. *)
From Coq Require Import ZArith Lia Bool List Permutation Arith Floats.SpecFloat.
From Verif Require Import Base Arith ArithF MPoint MLine MPoly MGroup SpecGroup.
Import ListNotations.

(** * Orders of sets that do not change from round to round *)
Definition picked {X} (idx : list nat) (l : list X) : list X := flat_map (fun k => match nth_error l k with Some x => [x] | None => [] end) idx.
Lemma picked_seq : forall X (p h : list X), picked (seq (length h) (length p)) (h ++ p) = p.
Proof.
  induction p as [|s p IH]; intros h; [reflexivity|]. simpl. unfold picked in *. simpl. rewrite nth_error_app2, Nat.sub_diag by lia. simpl. f_equal.
  replace (h ++ s :: p) with ((h ++ [s]) ++ p) by (rewrite <- app_assoc; reflexivity).
  replace (S (length h)) with (length (h ++ [s])) by (rewrite app_length; simpl; lia). apply IH.
Qed.
Lemma picked_perm : forall X idx (l : list X), Permutation idx (seq 0 (length l)) -> Permutation (picked idx l) l.
Proof. intros X idx l P. rewrite <- (picked_seq X l []) at 2. simpl. apply Permutation_flat_map. exact P. Qed.
(** the elements with these numbers first *)
Definition first_ids {A : Arith} (ids : list nat) (l : list (welt A)) : list (welt A) :=
  fold_right (fun i r => let '(a, b) := partition (fun x => Nat.eqb (w_id x) i) r in a ++ b) l (rev (rev ids)).
Lemma partition_perm : forall X (f : X -> bool) l a b, partition f l = (a, b) -> Permutation (a ++ b) l.
Proof.
  induction l as [|x l IH]; intros a b E; simpl in E; [injection E as <- <-; constructor|]. destruct (partition f l) as [a' b'] eqn:P. specialize (IH a' b' eq_refl).
  destruct (f x); injection E as <- <-; [simpl; constructor; auto|]. apply Permutation_sym. eapply perm_trans; [apply perm_skip, Permutation_sym, IH|]. apply Permutation_middle.
Qed.
Lemma first_ids_perm : forall (A : Arith) ids (l : list (welt A)), Permutation (first_ids ids l) l.
Proof.
  intros A ids l. unfold first_ids. generalize (rev (rev ids)). intros js. induction js as [|i js IH]; simpl; [reflexivity|]. destruct (partition _ _) as [a b] eqn:P. apply partition_perm in P. rewrite P. exact IH.
Qed.

(** The order of the tables of CPython 3.11 for the graph below: the segments not yet visited, and the
    set of the visited ones, which grows by one segment in each round. *)
Definition table (n : nat) : list nat :=
  match n with
  | 2 => [1; 0] | 3 => [1; 2; 0] | 4 => [1; 3; 0; 2] | 5 => [3; 0; 4; 2; 1] | 6 => [5; 0; 3; 4; 2; 1]
  | 7 => [5; 0; 3; 4; 2; 6; 1] | 8 => [5; 0; 3; 4; 2; 6; 1; 7] | _ => seq 0 n
  end.
Lemma table_perm : forall n, Permutation (table n) (seq 0 n).
Proof.
  intros n. do 9 (destruct n as [|n]; [first [reflexivity|apply NoDup_Permutation_bis; [repeat constructor; simpl; lia|simpl; lia|intros k; simpl; lia]]|]). reflexivity.
Qed.
Definition tables (A : Arith) : sched A := mksched (fun _ => first_ids [1; 0; 3; 2; 4]%nat) (fun _ l => picked (table (length l)) l).
Lemma tables_fair : forall A, fair (tables A).
Proof. intros A. split; intros k l; simpl; [apply first_ids_perm|apply picked_perm, table_perm]. Qed.

(** * Rounds *)
Record wstate (A : Arith) := mkws { s_nv : list (welt A); s_vis : list (seg A); s_akt : seg A; s_pt : pt A; s_br : bool }.
Arguments mkws {A}. Arguments s_nv {A}. Arguments s_vis {A}. Arguments s_akt {A}. Arguments s_pt {A}. Arguments s_br {A}.
Definition runs {A : Arith} (sch : sched A) (fuel k : nat) (s : wstate A) : res (wres A) := walk_loop sch fuel k (s_nv s) (s_vis s) (s_akt s) (s_pt s) (s_br s).
(** one round of [walk_loop], when another one follows *)
Definition round {A : Arith} (sch : sched A) (s : wstate A) : option (wstate A) :=
  match s_nv s with
  | [] => None
  | _ =>
    match candidates (s_akt s) (s_pt s) (it_nv sch 0 (s_nv s)) with
    | [] => None
    | nxt :: more =>
      let branch' := s_br s || negb (Nat.eqb (length more) 0) in
      let visited' := set_add (s_vis s) (s_akt s) in
      match filter (fun x => negb (pt_eqb x (s_pt s))) (ij (w_cur nxt)) with
      | [] => None
      | p' :: _ =>
        let ls := it_segs sch 0 (walk_segs visited' (w_cur nxt)) in
        match order (map fst ls) with
        | Err _ => None
        | Ok (ok, poly) =>
          match (if ok then isclosed poly else Ok false) with
          | Err _ => None
          | Ok closed =>
            if ok && closed && negb branch' then None
            else Some (mkws (map (fun x => if Nat.eqb (w_id x) (w_id nxt) then mkw (w_id x) (w_key x) (marked ls (order_objs (map fst ls)) (w_cur nxt)) else x) (discard (s_akt s) (s_nv s)))
                        visited' (w_cur nxt) p' branch')
          end
        end
      end
    end
  end.
Fixpoint rounds {A : Arith} (sch : sched A) (m : nat) (s : wstate A) : option (wstate A) :=
  match m with O => Some s | S m' => match round sch s with Some s' => rounds sch m' s' | None => None end end.

Lemma walk_loop_S : forall (A : Arith) (sch : sched A) f k nv visited akt aktpt branch, nv <> [] ->
  walk_loop sch (S f) k nv visited akt aktpt branch =
      match candidates akt aktpt (it_nv sch k nv) with
      | [] => Ok NoLoop
      | nxt :: more =>
        let branch' := branch || negb (Nat.eqb (length more) 0) in
        let visited' := set_add visited akt in
        let nv' := discard akt nv in
        match filter (fun x => negb (pt_eqb x aktpt)) (ij (w_cur nxt)) with
        | [] => Err IndexError
        | aktpt' :: _ =>
          let ls := it_segs sch k (walk_segs visited' (w_cur nxt)) in
          ' (ok, poly) <- order (map fst ls) ;;
          closed <- (if ok then isclosed poly else Ok false) ;;
          if ok && closed && negb branch' then Ok (Loop poly)
          else
            let cur' := marked ls (order_objs (map fst ls)) (w_cur nxt) in
            walk_loop sch f (S k)
              (map (fun x => if Nat.eqb (w_id x) (w_id nxt) then mkw (w_id x) (w_key x) cur' else x) nv')
              visited' (w_cur nxt) aktpt' branch'
        end
      end.
Proof. intros A sch f k nv. destruct nv; intros; [congruence|reflexivity]. Qed.
Lemma round_run : forall A s s', round (tables A) s = Some s' -> forall fuel k, runs (tables A) (S fuel) k s = runs (tables A) fuel (S k) s' /\ runs (tables A) 0 k s = Ok Running.
Proof.
  intros A [nv vis akt p br] s' E fuel k. unfold round in E. unfold runs. cbn [s_nv s_vis s_akt s_pt s_br] in *. destruct nv as [|w nv'] eqn:EN; [discriminate|]. rewrite <- EN in *.
  split; [|rewrite EN; reflexivity].
  rewrite walk_loop_S by (rewrite EN; discriminate).
  change (it_nv (tables A) k nv) with (it_nv (tables A) 0 nv).
  destruct (candidates akt p (it_nv (tables A) 0 nv)) as [|nxt more]; [discriminate|]. cbv zeta in *.
  destruct (filter _ (ij (w_cur nxt))) as [|p' ps]; [discriminate|].
  change (it_segs (tables A) k) with (it_segs (tables A) 0).
  destruct (order _) as [[ok poly]|]; [|discriminate]. cbn [bind].
  destruct (if ok then isclosed poly else Ok false) as [cl|]; [|discriminate]. cbn [bind].
  destruct (ok && cl && negb _); [discriminate|]. injection E as <-. reflexivity.
Qed.
Lemma rounds_run : forall A m s s', rounds (tables A) m s = Some s' -> forall fuel k,
  runs (tables A) (m + fuel) k s = runs (tables A) fuel (m + k) s' /\ ((fuel < m)%nat -> runs (tables A) fuel k s = Ok Running).
Proof.
  induction m as [|m IH]; intros s s' E fuel k; cbn [rounds] in E.
  - injection E as <-. split; [reflexivity|lia].
  - destruct (round (tables A) s) as [s1|] eqn:R1; [|discriminate]. split.
    + cbn [plus]. rewrite (proj1 (round_run A s s1 R1 (m + fuel) k)), (proj1 (IH s1 s' E fuel (S k))). f_equal. lia.
    + intros L. destruct fuel as [|f]; [apply (round_run A s s1 R1 0 k)|]. rewrite (proj1 (round_run A s s1 R1 f k)). apply (IH s1 s' E). lia.
Qed.
Lemma runs_on : forall A m s, (0 < m)%nat -> rounds (tables A) m s = Some s -> forall fuel k, runs (tables A) fuel k s = Ok Running.
Proof.
  intros A m s P E fuel. induction fuel as [fuel IH] using (well_founded_induction lt_wf). intros k.
  destruct (le_lt_dec m fuel) as [L|L]; [|apply (rounds_run A m s s E); auto].
  replace fuel with (m + (fuel - m))%nat by lia. rewrite (proj1 (rounds_run A m s s E (fuel - m) k)). apply IH. lia.
Qed.

(** * The same state *)
Definition sf_same (x y : spec_float) : bool :=
  match x, y with
  | S754_zero a, S754_zero b => Bool.eqb a b
  | S754_infinity a, S754_infinity b => Bool.eqb a b
  | S754_nan, S754_nan => true
  | S754_finite a m e, S754_finite b m' e' => Bool.eqb a b && Pos.eqb m m' && Z.eqb e e'
  | _, _ => false
  end.
Lemma sf_same_eq : forall x y, sf_same x y = true -> x = y.
Proof.
  intros [a|a| |a m e] [b|b| |b m' e'] H; simpl in H; try discriminate; try (apply Bool.eqb_prop in H; congruence); auto.
  apply andb_true_iff in H as [H E]. apply andb_true_iff in H as [H M]. apply Bool.eqb_prop in H. apply Pos.eqb_eq in M. apply Z.eqb_eq in E. congruence.
Qed.
Fixpoint all2 {X} (f : X -> X -> bool) (a b : list X) : bool := match a, b with [], [] => true | x :: a, y :: b => f x y && all2 f a b | _, _ => false end.
Lemma all2_eq : forall X (f : X -> X -> bool), (forall x y, f x y = true -> x = y) -> forall a b, all2 f a b = true -> a = b.
Proof. intros X f H. induction a as [|x a IH]; intros [|y b] E; simpl in E; try discriminate; auto. apply andb_true_iff in E as [E1 E2]. f_equal; auto. Qed.
Definition same_pt {L} (p q : pt (FA L)) : bool := sf_same (px p) (px q) && sf_same (py p) (py q).
Lemma same_pt_eq : forall L (p q : pt (FA L)), same_pt p q = true -> p = q.
Proof. intros L [a b] [c d] H. apply andb_true_iff in H as [H1 H2]. apply sf_same_eq in H1, H2. simpl in H1, H2. subst. reflexivity. Qed.
Definition plain {A : Arith} (s : seg A) : bool := match sc s with CLineSegment => true | _ => false end.
Definition same_seg {L} (s t : seg (FA L)) : bool := plain s && plain t && same_pt (si s) (si t) && same_pt (sj s) (sj t).
Lemma same_seg_eq : forall L (s t : seg (FA L)), same_seg s t = true -> s = t.
Proof.
  intros L [c a b] [c' a' b'] H. unfold same_seg, plain in H. cbn [sc si sj] in H. destruct c, c'; try discriminate. apply andb_true_iff in H as [H1 H2]. apply same_pt_eq in H1, H2. subst. reflexivity.
Qed.
Definition same_welt {L} (x y : welt (FA L)) : bool := Nat.eqb (w_id x) (w_id y) && same_seg (w_key x) (w_key y) && same_seg (w_cur x) (w_cur y).
Lemma same_welt_eq : forall L (x y : welt (FA L)), same_welt x y = true -> x = y.
Proof.
  intros L [i k c] [i' k' c'] H. unfold same_welt in H. cbn [w_id w_key w_cur] in H. apply andb_true_iff in H as [H H3]. apply andb_true_iff in H as [H1 H2].
  apply Nat.eqb_eq in H1. apply same_seg_eq in H2, H3. subst. reflexivity.
Qed.
Definition same_state {L} (s t : wstate (FA L)) : bool :=
  all2 same_welt (s_nv s) (s_nv t) && all2 same_seg (s_vis s) (s_vis t) && same_seg (s_akt s) (s_akt t) && same_pt (s_pt s) (s_pt t) && Bool.eqb (s_br s) (s_br t).
Lemma same_state_eq : forall L (s t : wstate (FA L)), same_state s t = true -> s = t.
Proof.
  intros L [a b c d e] [a' b' c' d' e'] H. unfold same_state in H. cbn [s_nv s_vis s_akt s_pt s_br] in H.
  apply andb_true_iff in H as [H H5]. apply andb_true_iff in H as [H H4]. apply andb_true_iff in H as [H H3]. apply andb_true_iff in H as [H1 H2].
  apply (all2_eq _ _ (same_welt_eq L)) in H1. apply (all2_eq _ _ (same_seg_eq L)) in H2. apply same_seg_eq in H3. apply same_pt_eq in H4. apply Bool.eqb_prop in H5. subst. reflexivity.
Qed.

(** * A triangle with a tail *)
Definition tailed (L : Libm) : list (seg (FA L)) :=
  map (fun '(a, b, c, d) => LineSegment (Point_new (nofZ a) (nofZ b)) (Point_new (nofZ c) (nofZ d)) : seg (FA L))
    [(6, 1, 3, 5); (8, 1, 7, 9); (8, 1, 4, 3); (7, 9, 4, 3); (6, 1, 4, 3)]%Z.
Definition begins {A : Arith} (g : list (seg A)) : option (wstate A) :=
  match g with
  | [] => None
  | s :: _ => match filter (fun x => pt_eqb (si s) (si (w_cur x))) (it_nv (tables A) 0 (nv_init g)) with
              | [] => None
              | akt :: _ => Some (mkws (nv_init g) [w_cur akt] (w_cur akt) (si s) false)
              end
  end.
Lemma begins_walk : forall (A : Arith) (g : list (seg A)) s fuel, begins g = Some s -> runs (tables A) fuel 1 s = Ok Running -> walk_segments (tables A) fuel g None = Ok Running.
Proof.
  intros A g s fuel B R. unfold begins in B. unfold walk_segments. destruct g as [|a l]; [discriminate|]. cbn [get nth_error bind].
  destruct (filter _ _) as [|akt more]; [discriminate|]. injection B as <-. exact R.
Qed.
Definition repeats {L} (g : list (seg (FA L))) : bool :=
  match begins g with
  | Some s => match rounds (tables (FA L)) 8 s with
              | Some s1 => match rounds (tables (FA L)) 3 s1 with Some s2 => same_state s1 s2 | None => false end
              | None => false
              end
  | None => false
  end.
Lemma repeats_true : forall L, repeats (tailed L) = true.
Proof. intros L. vm_compute. reflexivity. Qed.

Lemma repeats_runs : forall L (g : list (seg (FA L))) fuel, repeats g = true -> walk_segments (tables (FA L)) fuel g None = Ok Running.
Proof.
  intros L g fuel T. unfold repeats in T.
  destruct (begins g) as [s|] eqn:B; [|discriminate]. destruct (rounds (tables (FA L)) 8 s) as [s1|] eqn:E1; [|discriminate].
  destruct (rounds (tables (FA L)) 3 s1) as [s2|] eqn:E2; [|discriminate]. apply same_state_eq in T. subst s2.
  assert (R : forall fuel k, runs (tables (FA L)) fuel k s = Ok Running).
  { intros f k. destruct (le_lt_dec 8 f) as [G|G]; [|apply (rounds_run _ 8 s s1 E1); auto].
    replace f with (8 + (f - 8))%nat by lia. rewrite (proj1 (rounds_run _ 8 s s1 E1 (f - 8) k)). apply (runs_on _ 3); auto. }
  apply (begins_walk _ _ s); auto.
Qed.

(*@ C97_endless_refuted *)
(** C97, finding: walk_segments need not end.  For the segments of a triangle with a tail of two segments,
    all coordinates small integers, there is an order in which Python can visit the sets, the same in every
    round, with which the running program goes round the triangle for ever. *)
Lemma walk_endless : forall L : Libm,
  let g := map (fun '(a, b, c, d) => LineSegment (Point_new (nofZ a) (nofZ b)) (Point_new (nofZ c) (nofZ d)) : seg (FA L))
    [(6, 1, 3, 5); (8, 1, 7, 9); (8, 1, 4, 3); (7, 9, 4, 3); (6, 1, 4, 3)]%Z in
  exists sch, fair sch /\ forall fuel, walk_segments sch fuel g None = Ok Running.
Proof. intros L. change (exists sch, fair sch /\ forall fuel, walk_segments sch fuel (tailed L) None = Ok Running). exists (tables (FA L)). split; [apply tables_fair|]. intros fuel. apply repeats_runs, repeats_true. Qed.
(*@ C97_find_loops_refuted *)
(** C97, finding: so find_loops, which begins with walking along the segments, does not end for this graph
    either, although it has a single loop. *)
Lemma find_loops_endless : forall L : Libm,
  let g := map (fun '(a, b, c, d) => LineSegment (Point_new (nofZ a) (nofZ b)) (Point_new (nofZ c) (nofZ d)) : seg (FA L))
    [(6, 1, 3, 5); (8, 1, 7, 9); (8, 1, 4, 3); (7, 9, 4, 3); (6, 1, 4, 3)]%Z in
  exists sch, fair sch /\ forall wf fuel, find_loops (fun _ => sch) wf fuel g = Ok None.
Proof.
  intros L g0. destruct (walk_endless L) as (sch & F & W). fold g0 in W. exists sch. split; auto. intros wf fuel. unfold find_loops.
  revert W. generalize g0. intros g W. assert (V : value g (seq 0 (length g)) = g) by (apply (picked_seq _ g [])).
  destruct fuel as [|fuel]; cbn [walk_rounds l_heap l_graph]; rewrite V, W; reflexivity.
Qed.
