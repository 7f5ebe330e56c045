(** GENERATED by tools/gen_props.py from PContain2.v: the property theorems only. *)
From Coq Require Import Reals ZArith Lra Lia Bool List Psatz Permutation.
From Verif Require Import Base Arith ArithR ArithF MPoint MLine MPoly MTri MGroup MContain Spec SpecInside SpecGroup SpecBase SpecContain
  PPoint PShape PMore PConvex POrder PCorner PGroup PBase PBase2.
Import ListNotations.
Local Open Scope R_scope.
#[local] Existing Instance RA.
From Verif Require Import PContain2.

(** C76: cycles whose segments, without those with a loose end, form one cycle each.  The call returns; the
    segments of the parts are changed at most in their direction.  The polygon of every cycle is made of exactly
    these segments; it is continuous and closed if no later cycle has a segment in common with it - so the
    last one always is. *)
Theorem C76_cycles : forall (h : list (seg RA)) (cycles : list (nat * list (list nat))),
  (forall k parts, In (k, parts) cycles -> NoDup (concat parts) /\ (forall i, In i (concat parts) -> (i < length h)%nat) /\
     exists vs, cycle_of (remove_outlier_segments (segments_at h parts)) vs) ->
  exists r h', group_cycles h cycles = Ok (r, h') /\ Forall2 turned h' h /\ map fst r = map fst cycles /\
    forall n k parts c, nth_error cycles n = Some (k, parts) -> nth_error r n = Some (k, c) ->
      exists ids, c = Some ids /\ rearranged (value h' ids) (remove_outlier_segments (segments_at h parts)) /\
        ((forall m j parts', (n < m)%nat -> nth_error cycles m = Some (j, parts') -> forall x, In x (concat parts) -> ~ In x (concat parts')) ->
         room_of (value h' ids) (remove_outlier_segments (segments_at h parts))).
Proof. exact group_cycles_spec. Qed.
Print Assumptions C76_cycles.

(** C77 (any arithmetic): the list of the edges of a group is returned - in the order of the segments - if every
    segment has the same end points (==) as the one before; otherwise TypeError is raised. *)
Theorem C77_edgelist : forall (A : Arith) (polygons : list (list (seg A))),
  let same (s t : seg A) := pt_eqb (si t) (si s) = true /\ pt_eqb (sj t) (sj s) = true in
  ((forall k s t, nth_error (concat polygons) k = Some s -> nth_error (concat polygons) (S k) = Some t -> same s t) ->
     as_edgelist polygons = Ok (map (fun s => (si s, sj s)) (concat polygons))) /\
  (forall k s t, nth_error (concat polygons) k = Some s -> nth_error (concat polygons) (S k) = Some t -> ~ same s t ->
     as_edgelist polygons = Err TypeError).
Proof. exact edgelist_spec. Qed.
Print Assumptions C77_edgelist.

(** C77: so the edge list of a group with a continuous polygon of two or more segments - the first not shorter than
    2e-5 in both coordinates - always raises TypeError. *)
Theorem C77_typeerror : forall (polygons : list (list (seg RA))) s t r, In (s :: t :: r) polygons -> iscontinuous (s :: t :: r) = true ->
  2 / 10^5 <= Rabs (px (si s) - px (sj s)) \/ 2 / 10^5 <= Rabs (py (si s) - py (sj s)) ->
  as_edgelist polygons = Err TypeError.
Proof. exact edgelist_typeerror. Qed.
Print Assumptions C77_typeerror.

(** C78 (any arithmetic): looking a polygon up in a group returns a polygon of the group equal (==) to it if there is
    exactly one, and raises otherwise. *)
Theorem C78_lookup : forall (A : Arith) (polygons : list (list (seg A))) rep,
  (forall p, polygon_from_repr polygons rep = Ok p <-> exactly_one (fun x => poly_eqb x rep = true) polygons p) /\
  ((forall p, ~ exactly_one (fun x => poly_eqb x rep = true) polygons p) -> polygon_from_repr polygons rep = Err OtherException).
Proof. exact lookup_spec. Qed.
Print Assumptions C78_lookup.

(** C78 (any arithmetic): the names of a list of polygons: a polygon equal to exactly one in the group gives that
    one's name, a polygon equal to none or to several is left out without notice. *)
Theorem C78_names : forall (A : Arith) N (polygons : list (N * list (seg A))) v,
  exists rows, fill_vect polygons v = concat rows /\
    Forall2 (fun pl row => (exists n p, exactly_one (fun x => poly_eqb pl (snd x) = true) polygons (n, p) /\ row = [n]) \/
                           ((forall x, ~ exactly_one (fun x => poly_eqb pl (snd x) = true) polygons x) /\ row = [])) v rows.
Proof. exact names_spec. Qed.
Print Assumptions C78_names.

(** C78: the names of the polygons of a group, no two of which are equal, are all their names. *)
Theorem C78_own_names : forall N (polygons : list (N * list (seg RA))),
  (forall x y, distinct_positions polygons x y -> poly_eqb (snd x) (snd y) = false) ->
  fill_vect polygons (map snd polygons) = map fst polygons.
Proof. exact own_names. Qed.
Print Assumptions C78_own_names.

(** C43: simplify leaves out the segments with an end point occurring once, and exactly the internal and
    external points that were added for one of them; the indifferent points all stay.  (Points added for
    segments of the polygon; end points identical or different also for ==.) *)
Theorem C43_simplify : forall p : ipoly RA, separated (flat_map ij (ip_segs p)) ->
  (forall s, In s (ip_segs (simplify p)) <-> In s (ip_segs p) /\ forall q, In q (ij s) -> occurs_twice q (flat_map ij (ip_segs p))) /\
  ((forall x, In x (ip_int p) -> In (snd x) (ip_segs p)) ->
    forall x, In x (ip_int (simplify p)) <-> In x (ip_int p) /\ forall q, In q (ij (snd x)) -> occurs_twice q (flat_map ij (ip_segs p))) /\
  ((forall x, In x (ip_ext p) -> In (snd x) (ip_segs p)) ->
    forall x, In x (ip_ext (simplify p)) <-> In x (ip_ext p) /\ forall q, In q (ij (snd x)) -> occurs_twice q (flat_map ij (ip_segs p))) /\
  ip_ind (simplify p) = ip_ind p.
Proof. exact simplify_spec. Qed.
Print Assumptions C43_simplify.
