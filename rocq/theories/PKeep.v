(** C84: the triangles a polygon keeps. *)
From Coq Require Import Reals ZArith List Bool Arith Lia Lra.
From Verif Require Import Base Arith ArithR MPoint MLine MPoly MTri MKeep Spec PPoint PPoly PConvex PTri PExTri.
Import ListNotations.
Local Open Scope R_scope.

(*@ C84_kept *)
(** Every arithmetic: once a polygon has triangles, they stay the same whatever is done with it, as long as no call forces
    a new triangulation; and such a call returns for every algorithm except None, even for an unknown one. *)
Lemma triangles_kept : forall (A : Arith) (p : tpoly A) (history : list (tact A)), tp_tris p <> [] ->
  Forall (fun a => match a with Triangulate _ _ force => force = false | Change _ => True end) history ->
  tp_tris (fold_left tact_do history p) = tp_tris p /\
  forall o alg, triangulate o alg false (fold_left tact_do history p) = (fold_left tact_do history p, if match alg with ANone => true | _ => false end then Err OtherException else Ok tt).
Proof.
  intros A p history NE F.
  assert (T : forall (q : tpoly A) o alg, tp_tris q <> [] -> triangulate o alg false q = (q, if match alg with ANone => true | _ => false end then Err OtherException else Ok tt)).
  { intros q o alg N. unfold triangulate. destruct (tp_tris q) eqn:E; [congruence|]. destruct alg; reflexivity. }
  assert (K : tp_tris (fold_left tact_do history p) = tp_tris p).
  { revert p NE. induction F as [|a l Fa F IH]; intros p NE; [reflexivity|]. cbn [fold_left].
    assert (S1 : tp_tris (tact_do p a) = tp_tris p) by (destruct a as [o alg force|f]; [cbn [tact_do]; subst force; rewrite (T p o alg NE); reflexivity|reflexivity]).
    rewrite IH; [exact S1|]. rewrite S1. exact NE. }
  split; [exact K|]. intros o alg. apply T. rewrite K. exact NE.
Qed.

(*@ C84_fresh *)
(** Every arithmetic: without triangles, or when forced, the triangles are computed from the segments of that moment,
    whatever the triangles were before.  'triangle' gives those of the mesh, 'ear clipping' those of ear clipping, and
    'random' any of the three named algorithms, each with some draw. *)
Lemma triangles_fresh : forall (A : Arith) (o : tenv A) (p : tpoly A) (force : bool), tp_tris p = [] \/ force = true ->
  (forall ts, triangle_mesh (te_lib o) (te_inside o) (tp_segs p) = Ok ts -> triangulate o ATriangle force p = (mktp (tp_segs p) ts, Ok tt)) /\
  (forall b ts, ear_clipping (te_ear o) (tp_segs p) = Ok (b, ts) -> triangulate o AEar force p = (mktp (tp_segs p) ts, Ok tt)) /\
  triangulate o AUnknown force p = (p, Err OtherException) /\
  (exists alg, In alg [ADelaunay; AEar; ATriangle] /\ triangulate o ARandom force p = triangulate o alg force p) /\
  (forall alg, In alg [ADelaunay; AEar; ATriangle] -> exists n, triangulate (mkte n (te_ear o) (te_lib o) (te_inside o)) ARandom force p = triangulate o alg force p).
Proof.
  intros A o p force H. assert (C : (match tp_tris p with [] => true | _ => false end) || force = true) by (destruct H as [->| ->]; [reflexivity|apply orb_true_r]).
  unfold triangulate. rewrite C. split; [|split; [|split; [|split]]].
  - intros ts E. cbn [chosen]. rewrite E. reflexivity.
  - intros b ts E. cbn [chosen]. rewrite E. reflexivity.
  - reflexivity.
  - exists (chosen o ARandom). unfold chosen. pose proof (Nat.mod_upper_bound (te_choice o) 3 ltac:(lia)) as L.
    destruct (te_choice o mod 3)%nat as [|[|[|n]]]; cbn [nth In]; [auto|auto|auto|lia].
  - intros alg I. destruct I as [<-|[<-|[<-|[]]]]; [exists 0%nat|exists 1%nat|exists 2%nat]; reflexivity.
Qed.

(*@ C84_delaunay_refuted *)
(** Every arithmetic (finding): 'delaunay' never triangulates. A polygon that is only triangulated this way, forced or not, never has
    triangles, every such call raises AttributeError, and a forced call makes a polygon lose the triangles it had. *)
Lemma delaunay_fails : forall (A : Arith) (o : tenv A) (p : tpoly A) (history : list (tact A)),
  Forall (fun a => match a with Triangulate _ alg _ => alg = ADelaunay | Change _ => True end) history ->
  (tp_tris p = [] -> tp_tris (fold_left tact_do history p) = [] /\ forall force, snd (triangulate o ADelaunay force (fold_left tact_do history p)) = Err AttributeError) /\
  triangulate o ADelaunay true p = (mktp (tp_segs p) [], Err AttributeError).
Proof.
  intros A o p history F. split; [|unfold triangulate; rewrite orb_true_r; reflexivity]. intros E.
  assert (K : tp_tris (fold_left tact_do history p) = []).
  { revert p E. induction F as [|a l Fa F IH]; intros p E; [exact E|]. cbn [fold_left]. apply IH. destruct a as [o' alg force|f]; [|exact E].
    subst alg. cbn [tact_do]. unfold triangulate. rewrite E. reflexivity. }
  split; [exact K|]. intros force. unfold triangulate. rewrite K. reflexivity.
Qed.

(** ** disjunct *)
Lemma existsM_false : forall X (f : X -> res bool) l, existsM f l = Ok false -> forall x, In x l -> f x = Ok false.
Proof.
  intros X f l. induction l as [|y l IH]; intros H x I; [destruct I|]. cbn [existsM] in H. destruct (f y) as [b|e] eqn:E; [|discriminate]. cbn [bind] in H.
  destruct b; [discriminate|]. destruct I as [<-|I]; auto.
Qed.
Lemma comb2_app : forall X (a b : list X) x y, In x a -> In y b -> In (x, y) (combinations2 (a ++ b)).
Proof.
  intros X a b x y Ix Iy. induction a as [|z a IH]; [destruct Ix|]. cbn [app combinations2]. apply in_app_iff. destruct Ix as [<-|Ix]; [left|right; auto].
  apply in_map_iff. exists y. split; [reflexivity|]. apply in_app_iff; auto.
Qed.
Lemma congruent_self : forall t : list (seg RA), congruent t t = true.
Proof.
  intros t. unfold congruent. rewrite Nat.eqb_refl. cbn [andb]. induction (point_set t) as [|p l IH]; [reflexivity|]. cbn [forallb2].
  rewrite IH, andb_true_r. apply pt_eqb_iff. rewrite !Rminus_eq_0, Rabs_R0. lra.
Qed.

(*@ C84_untriangulated *)
(** Every arithmetic (finding): polygons without triangles, never triangulated or not triangulable, are always reported disjunct. *)
Lemma disjunct_untriangulated : forall (A : Arith) inside (p q : tpoly A), tp_tris p = [] -> tp_tris q = [] -> disjunct inside p q = Ok true.
Proof. intros A inside p q E F. unfold disjunct. rewrite E, F. reflexivity. Qed.

(*@ C84_stale_refuted *)
(** Finding: two polygons reported disjunct stay so when one is moved onto the other: with the same segments they still count as
    disjunct, although with triangles computed afresh they would not. *)
Lemma disjunct_stale : forall inside (p q : tpoly RA) (f : list (seg RA) -> list (seg RA)) (o : tenv RA),
  disjunct inside p q = Ok true -> f (tp_segs q) = tp_segs p ->
  tp_segs (change f q) = tp_segs p /\ disjunct inside p (change f q) = Ok true /\
  (forall p' q' inside', triangulate o ATriangle true p = (p', Ok tt) -> triangulate o ATriangle true (change f q) = (q', Ok tt) ->
     tp_tris p' <> [] -> disjunct inside' p' q' <> Ok true).
Proof.
  intros inside p q f o D E. split; [exact E|]. split; [exact D|]. intros p' q' inside' P Q NE.
  assert (T : tp_tris p' = tp_tris q').
  { revert P Q. unfold triangulate. rewrite !orb_true_r. cbn [chosen change tp_segs]. rewrite E. destruct (triangle_mesh _ _ _) as [ts|e]; [|discriminate].
    intros P Q. injection P as <-. injection Q as <-. reflexivity. }
  destruct (tp_tris p') as [|t l] eqn:TP; [congruence|]. unfold disjunct, poly_disjunct. rewrite TP, <- T. set (cs := combinations2 ((t :: l) ++ t :: l)).
  intros H. destruct (existsM _ _) as [b|e] eqn:EX; [|discriminate]. cbn [bind] in H. destruct b; [discriminate|].
  assert (I : In (t, t) cs) by (apply comb2_app; left; reflexivity).
  apply (In_nth cs (t, t) (t, t)) in I as (k & L & N).
  assert (J : In (k, (t, t)) (combine (seq 0 (length cs)) cs)).
  { assert (NN : nth k (combine (seq 0 (length cs)) cs) (0%nat, (t, t)) = (k, (t, t))) by (rewrite combine_nth by apply seq_length; rewrite seq_nth by exact L; rewrite N; reflexivity).
    rewrite <- NN. apply nth_In. rewrite combine_length, seq_length. lia. }
  pose proof (existsM_false _ _ _ EX _ J) as B. cbv beta iota in B. destruct (overlap (inside' k) t t) as [x|]; [|discriminate]. cbn [bind] in B. rewrite congruent_self, orb_true_r in B. discriminate.
Qed.

(*@ex C84_example *)
(** The triangle (0,0), (4,0), (4,3) has triangles after it has been triangulated; two such polygons are reported disjunct before. *)
Example keep_example : forall e : ear_oracle RA, let o := mkte 0 e t_lib t_in in let p := mktp t_segs [] in
  (exists ts, ts <> [] /\ triangulate o ATriangle false p = (mktp t_segs ts, Ok tt)) /\ disjunct t_in p p = Ok true.
Proof.
  intros e o p. split; [|reflexivity]. destruct area_example as (_ & _ & _ & _ & E). unfold area, detailled_area in E.
  destruct (triangle_mesh t_lib t_in t_segs) as [ts|x] eqn:T; [|discriminate]. exists ts. split.
  - intros ->. cbn [bind mapM] in E. injection E as E. rewrite nsum_R in E. cbn [fold_right] in E. ra_simpl. rewrite Rround8_id in E by (exists 0%Z; lra). lra.
  - unfold triangulate. cbn [chosen p o tp_tris tp_segs te_lib te_inside orb]. rewrite T. reflexivity.
Qed.
