(** GENERATED by tools/gen_props.py from PHeap.v: the property theorems only. *)
From Coq Require Import Reals ZArith Lra Lia Bool List Psatz Permutation Arith.
From Verif Require Import Base Arith ArithR ArithF MPoint MLine MPoly MHeap Spec SpecHeap PPoint PLine PTrig PShape PConvex PTri POrder.
Import ListNotations.
#[local] Existing Instance RA.
From Verif Require Import PHeap.

(** C27: after purging coincident end points are one object, which was one of the objects before;
    the polygon looks as before (purge has no effect on the coordinates of any object), and purging
    again changes nothing. *)
Theorem C27_purge : forall (h : heap RA) (P : hpoly), sound h P ->
  let P' := purge h P in
  one_object_per_place h (hsegs P') /\ incl (objects (hsegs P')) (objects (hsegs P)) /\
  view h (hsegs P') = view h (hsegs P) /\ hpurged P' = true /\ sound h P' /\ purge h P' = P'.
Proof. exact purge_sound. Qed.
Print Assumptions C27_purge.

(** C28: move translates every end point by exactly the offsets, once, however the Point objects are
    shared; no other Point object changes, and the polygon stays fit for further transformations. *)
Theorem C28_move : forall (h : heap RA) (P : hpoly) (u v : R),
  sound h P -> all_stored h (hsegs P) -> decimal8 u -> decimal8 v ->
  let '(h', P') := move u v h P in
  view h' (hsegs P') = map (seg_translate u v) (view h (hsegs P)) /\
  (forall o, ~ In o (objects (hsegs P)) -> h' o = h o) /\ incl (objects (hsegs P')) (objects (hsegs P)) /\
  hpurged P' = true /\ sound h' P' /\ all_stored h' (hsegs P').
Proof. exact move_exact. Qed.
Print Assumptions C28_move.

(** C28, C30: any history of moves and reflections is the composition of the translations and
    reflections applied to every end point. *)
Theorem C28_history : forall (ts : list step) (h : heap RA) (P : hpoly),
  sound h P -> all_stored h (hsegs P) -> Forall step_decimal8 ts ->
  let '(h', P') := run_steps ts h P in
  view h' (hsegs P') = map (seg_image (fun p => fold_left (fun q t => step_image t q) ts p)) (view h (hsegs P)) /\
  (forall o, ~ In o (objects (hsegs P)) -> h' o = h o) /\ sound h' P' /\ all_stored h' (hsegs P').
Proof. exact history. Qed.
Print Assumptions C28_history.

(** C28: moving back restores the polygon. *)
Theorem C28_move_back : forall (h : heap RA) (P : hpoly) (u v : R),
  sound h P -> all_stored h (hsegs P) -> decimal8 u -> decimal8 v ->
  let '(h1, P1) := move u v h P in let '(h2, P2) := move (A := RA) (- u)%R (- v)%R h1 P1 in
  view h2 (hsegs P2) = view h (hsegs P) /\ (forall o, ~ In o (objects (hsegs P)) -> h2 o = h o).
Proof. exact move_back. Qed.
Print Assumptions C28_move_back.

(** C28: translation does not affect continuity, closedness, lengths and cross products. *)
Theorem C28_invariants : forall (u v : R) (l : list (seg RA)),
  iscontinuous (map (seg_translate u v) l) = iscontinuous l /\
  isclosed (map (seg_translate u v) l) = isclosed l /\
  map norm (map (seg_translate u v) l) = map norm l /\
  cps (map (seg_translate u v) l) = cps l.
Proof. exact move_invariants. Qed.
Print Assumptions C28_invariants.

(** C28: a Point object q appended to a purged polygon at the place of an end point o that is another
    object: of these two coincident end points move translates at most one, so they come apart. *)
Theorem C28_appended_point : forall (h : heap RA) (P : hpoly) (q o : nat) (u v : R) (P1 : hpoly),
  hpurged P = true -> In o (objects (hsegs P)) -> q <> o -> h q = h o -> stored (h o) -> decimal8 u -> decimal8 v -> (u <> 0 \/ v <> 0)%R ->
  happend_end P q = Ok P1 ->
  (forall a, In a (objects (hsegs P1)) -> h a = h o -> a = q \/ a = o) ->
  let '(h', P') := move u v h P1 in
  In q (objects (hsegs P')) /\ In o (objects (hsegs P')) /\ h' q <> h' o.
Proof. exact appended_point. Qed.
Print Assumptions C28_appended_point.

(** C30: every end point is reflected exactly; no other object changes. *)
Theorem C30_mirror : forall (h : heap RA) (P : hpoly) (x0 : R),
  sound h P -> all_stored h (hsegs P) -> decimal8 x0 ->
  let '(h', P') := mirror_vertical x0 h P in
  view h' (hsegs P') = map (seg_image (mirror x0)) (view h (hsegs P)) /\
  (forall o, ~ In o (objects (hsegs P)) -> h' o = h o) /\ incl (objects (hsegs P')) (objects (hsegs P)) /\
  hpurged P' = true /\ sound h' P' /\ all_stored h' (hsegs P').
Proof. exact mirror_exact. Qed.
Print Assumptions C30_mirror.

(** C30: mirroring twice restores the polygon. *)
Theorem C30_involution : forall (h : heap RA) (P : hpoly) (x0 : R),
  sound h P -> all_stored h (hsegs P) -> decimal8 x0 ->
  let '(h1, P1) := mirror_vertical x0 h P in let '(h2, P2) := mirror_vertical x0 h1 P1 in
  view h2 (hsegs P2) = view h (hsegs P) /\ (forall o, ~ In o (objects (hsegs P)) -> h2 o = h o).
Proof. exact mirror_twice. Qed.
Print Assumptions C30_involution.

(** C30: continuity, closedness and lengths are as before, every cross product changes its sign. *)
Theorem C30_invariants : forall (x0 : R) (l : list (seg RA)),
  iscontinuous (map (seg_image (mirror x0)) l) = iscontinuous l /\
  isclosed (map (seg_image (mirror x0)) l) = isclosed l /\
  map norm (map (seg_image (mirror x0)) l) = map norm l /\
  (forall s t : seg RA, crossproduct (seg_image (mirror x0) s) (seg_image (mirror x0) t) = - crossproduct s t)%R.
Proof. exact mirror_invariants. Qed.
Print Assumptions C30_invariants.

(** C29: every end point goes within 5e-9 per coordinate of its true rotated position; its distance
    from the origin changes by at most 1.5e-8 and distances between end points as well.  Coincident end
    points stay coincident, no other object changes. *)
Theorem C29_rotate : forall (h : heap RA) (P : hpoly) (phi : R), sound h P ->
  let '(h', P') := rotate_about_origin phi h P in
  exists g : pt RA -> pt RA,
    view h' (hsegs P') = map (seg_image g) (view h (hsegs P)) /\
    (forall p, within (5 / 10^9) (g p) (rotate phi p) /\ stored (g p)) /\
    (forall p q, Rabs (dist (g p) (g q) - dist p q) <= 15 / 10^9)%R /\
    (forall p, Rabs (dist (g p) (@mkpt RA 0%R 0%R) - dist p (@mkpt RA 0%R 0%R)) <= 1 / 10^8)%R /\
    (forall o, ~ In o (objects (hsegs P)) -> h' o = h o) /\
    hpurged P' = true /\ one_object_per_place h' (hsegs P').
Proof. exact rotate_spec. Qed.
Print Assumptions C29_rotate.

(** C29: multiples of 90 degrees are exact for stored coordinates. *)
Theorem C29_quarter_turns : forall (h : heap RA) (P : hpoly) (k : Z), sound h P -> all_stored h (hsegs P) ->
  let '(h', P') := rotate_about_origin (A := RA) (90 * IZR k)%R h P in
  view h' (hsegs P') = map (seg_image (rotate (90 * IZR k))) (view h (hsegs P)).
Proof. exact rotate_quarter. Qed.
Print Assumptions C29_quarter_turns.

(** C29: rotation about (x0, y0) with 8-decimal x0, y0; the centre stays where it is. *)
Theorem C29_rotate_about_xy : forall (h : heap RA) (P : hpoly) (x0 y0 phi : R),
  sound h P -> all_stored h (hsegs P) -> decimal8 x0 -> decimal8 y0 ->
  let '(h', P') := rotate_about_xy x0 y0 phi h P in
  exists g : pt RA -> pt RA,
    view h' (hsegs P') = map (seg_image g) (view h (hsegs P)) /\
    (forall p, stored p -> within (5 / 10^9) (g p) (rotate_about x0 y0 phi p) /\ stored (g p)) /\
    (forall p q, stored p -> stored q -> Rabs (dist (g p) (g q) - dist p q) <= 15 / 10^9)%R /\
    g (@mkpt RA x0 y0) = @mkpt RA x0 y0 /\
    (forall o, ~ In o (objects (hsegs P)) -> h' o = h o) /\
    hpurged P' = true.
Proof. exact rotate_about_xy_spec. Qed.
Print Assumptions C29_rotate_about_xy.

(** C17: moving a segment translates its two ends (8-decimal offsets, stored ends) and changes no other
    object, its length stays; a segment whose ends are one object is moved by twice the offset. *)
Theorem C17_segment_move : forall (h : heap RA) (s : hseg) (u v : R),
  stored (h (hi s)) -> stored (h (hj s)) -> decimal8 u -> decimal8 v ->
  let h' := seg_move h s u v in
  (hi s <> hj s -> seg_view h' s = seg_translate u v (seg_view h s)) /\
  (hi s = hj s -> seg_view h' s = seg_translate (2 * u) (2 * v) (seg_view h s)) /\
  norm (seg_view h' s) = norm (seg_view h s) /\
  (forall o, o <> hi s -> o <> hj s -> h' o = h o).
Proof. exact segment_move. Qed.
Print Assumptions C17_segment_move.

(** C17: mirroring reflects both ends exactly, twice restores the segment, lengths stay; if both ends
    are one object nothing changes at all. *)
Theorem C17_segment_mirror : forall (h : heap RA) (s : hseg) (x0 : R),
  stored (h (hi s)) -> stored (h (hj s)) -> decimal8 x0 ->
  let h' := seg_mirror h s x0 in
  (hi s <> hj s -> seg_view h' s = seg_image (mirror x0) (seg_view h s) /\
     seg_view (seg_mirror h' s x0) s = seg_view h s) /\
  (hi s = hj s -> seg_view h' s = seg_view h s) /\
  norm (seg_view h' s) = norm (seg_view h s) /\
  (forall o, o <> hi s -> o <> hj s -> h' o = h o).
Proof. exact segment_mirror. Qed.
Print Assumptions C17_segment_mirror.
