(** GENERATED by tools/gen_props.py from PMake.v: the property theorems only. *)
From Coq Require Import Reals ZArith Lra Lia Bool List Psatz Permutation Arith.
From Coq Require Import SpecFloat.
From Verif Require Import Base Arith ArithR ArithF MPoint MLine MPoly MHeap Spec SpecHeap PPoint PLine PTrig PPoly PShape PConvex PTri POrder PHeap.
Import ListNotations.
#[local] Existing Instance RA.
From Verif Require Import PMake.

(** C41: for a size a whose half is an 8-decimal number of at least 1e-5 and an 8-decimal position, the
    square is closed, valid and convex, has the stated five segments and bounding box, is
    counter-clockwise unless cw, and no existing object changes. *)
Theorem C41_square : forall (h : heap RA) (base : nat) (a x0 y0 : R) (cw : bool),
  decimal8 (a / 2) -> (1/10^5 <= a / 2)%R -> decimal8 x0 -> decimal8 y0 ->
  (Rabs x0 + a <= 10^11)%R -> (Rabs y0 + a <= 10^11)%R ->
  exists h' P', square h base a x0 y0 cw = Ok (h', P') /\
    let l := view h' (hsegs P') in
    let o := @mkpt RA x0 y0 in
    let ring := [@mkpt RA (x0 + a / 2)%R y0; @mkpt RA (x0 + a / 2)%R (y0 + a)%R; @mkpt RA (x0 - a / 2)%R (y0 + a)%R; @mkpt RA (x0 - a / 2)%R y0] in
    l = cycle_poly (o :: (if cw then rev ring else ring)) /\
    isclosed l = Ok true /\ isconvex l = Ok true /\ iscw l = Ok cw /\
    bounding_box l = ((x0 - a / 2, x0 + a / 2), (y0, y0 + a))%R /\
    (forall k, (k < base \/ base + 5 <= k)%nat -> h' k = h k) /\ sound h' P'.
Proof. exact square_spec. Qed.
Print Assumptions C41_square.

(** C42: out-of-range angles, radius and count are rejected. *)
Theorem C42_arc_rejects : forall (h : heap RA) (base : nat) (cx cy r a_start a_end : R) (n : Z) (cw : bool),
  ~ (0 <= a_start < 360 /\ 0 < a_end <= 360 /\ a_start < a_end /\ 0 < r /\ (0 < n)%Z)%R ->
  arc h base cx cy r a_start a_end n cw = Err AssertionError.
Proof. exact arc_rejects. Qed.
Print Assumptions C42_arc_rejects.

(** C42: an arc with an 8-decimal centre whose nodes are not nearly coincident (chords of one step and
    of the whole arc at least 2e-5; or a full counter-clockwise circle) has n segments; they join
    consecutive vertices, the k-th of which is within 1.5e-8 of the point of the circle at the angle
    alpha_start + k/n (alpha_end - alpha_start) and has 8-decimal coordinates.  With cw the order is: first vertex, then the last
    one, and back to the second. *)
Theorem C42_arc : forall (h : heap RA) (base : nat) (cx cy r a_start a_end : R) (n : nat) (cw : bool),
  (0 < n)%nat -> (0 <= a_start < 360 /\ 0 < a_end <= 360 /\ a_start < a_end /\ 0 < r)%R ->
  decimal8 cx -> decimal8 cy ->
  let total := (a_end - a_start)%R in
  (1/10^5 <= r * sin (total / INR n * PI / 360))%R ->
  (1/10^5 <= r * sin (total * PI / 360) \/ total = 360 /\ cw = false)%R ->
  exists h' P' v0 vs, arc h base cx cy r a_start a_end (Z.of_nat n) cw = Ok (h', P') /\ length vs = n /\
    (forall k p, nth_error (v0 :: vs) k = Some p ->
       dist p (circle_pt cx cy r (a_start + INR k * total / INR n)) <= 15/10^9 /\ Rabs (dist p (@mkpt RA cx cy) - r) <= 15/10^9 /\ stored p)%R /\
    view h' (hsegs P') = chain (v0 :: if cw then rev vs else vs) /\
    (total = 360%R -> isclosed (view h' (hsegs P')) = Ok true) /\
    (forall o, (o < base \/ base + S n <= o)%nat -> h' o = h o).
Proof. exact arc_spec. Qed.
Print Assumptions C42_arc.

(** C27, finding: with three end points A, B, C closer to their neighbours than the tolerance (but A and
    C farther) purge replaces the far end F of the segment C F by A. *)
Theorem C27_near_points_refuted : forall L : Libm, exists (h : heap (FA L)) (P : hpoly),
  hpurged P = false /\ isclosed (view h (hsegs P)) = Ok true /\
  hsegs P = map (fun e => mkh CLineSegment (fst e) (snd e)) (cycle_edges [0; 3; 1; 4; 2; 5]%nat) /\
  (match nth_error (hsegs (purge h P)) 4 with Some s => (hi s, hj s) | None => (9, 9)%nat end) = (2, 0)%nat /\
  nltb n1 (pt_distance (h 5%nat) (h 0%nat)) = true.
Proof. exact purge_near_refuted. Qed.
Print Assumptions C27_near_points_refuted.

(** C42, finding: a full circle with cw=True about a centre other than the origin is not closed: its
    first segment is null with two Point objects, and only one of them is moved.  The same circle
    without cw is closed. *)
Theorem C42_cw_circle_refuted :
  let F0 := FA quadrant_libm in let z k : @num F0 := nofZ k in
  let circle cw := (r <- arc (A := F0) (fun _ => Point_new (z 0%Z) (z 0%Z)) 0 (z 10%Z) (z 10%Z) (z 1%Z) (z 0%Z) (z 360%Z) 4 cw ;; isclosed (view (fst r) (hsegs (snd r)))) in
  circle true = Ok false /\ circle false = Ok true.
Proof. exact cw_circle_refuted. Qed.
Print Assumptions C42_cw_circle_refuted.
