(** Small independent specification vocabulary: plain plane geometry over the reals, and object
    histories.  Nothing here refers to the functions of the model. *)
From Coq Require Import Reals ZArith List Permutation.
From Verif Require Import Base Arith ArithR MPoint MLine.
Import ListNotations.
Local Open Scope R_scope.

(** Twice the signed area of the triangle a, b, c: positive iff c is left of a -> b. *)
Definition orient (a b c : pt RA) : R :=
  (px b - px a) * (py c - py a) - (py b - py a) * (px c - px a).

(** The point a + t (b - a). *)
Definition along (a b : pt RA) (t : R) : pt RA :=
  @mkpt RA (px a + t * (px b - px a)) (py a + t * (py b - py a)).

(** q is on the infinite line / the closed segment a b. *)
Definition on_line (a b q : pt RA) : Prop := exists t : R, q = along a b t.
Definition on_segment (a b q : pt RA) : Prop := exists t : R, 0 <= t <= 1 /\ q = along a b t.

(** Euclidean distance. *)
Definition dist (a b : pt RA) : R := sqrt ((px a - px b) ^ 2 + (py a - py b) ^ 2).

(** Translation by (u, v). *)
Definition translate (u v : R) (p : pt RA) : pt RA := @mkpt RA (px p + u) (py p + v).
Definition seg_translate (u v : R) (s : seg RA) : seg RA :=
  mkseg (sc s) (translate u v (si s)) (translate u v (sj s)).

(** Integer coordinates of absolute value at most B. *)
Definition lattice (B : Z) (p : pt RA) : Prop :=
  exists a b : Z, px p = IZR a /\ py p = IZR b /\ (Z.abs a <= B)%Z /\ (Z.abs b <= B)%Z.

(** Coordinates that are multiples of 1e-8 - what every Point constructed from two numbers has. *)
Definition stored (p : pt RA) : Prop :=
  (exists k : Z, px p = IZR k / 10^8) /\ (exists k : Z, py p = IZR k / 10^8).

(** A history of operations on one Point object: asking for validity, setting coordinates,
    revoking them. *)
Inductive pt_op {A : Arith} := OpQuery | OpSet (a : pyarg A) | OpEmpty.
Fixpoint run_ops {A : Arith} (ops : list pt_op) (o : ptobj A) : res (ptobj A) :=
  match ops with
  | [] => Ok o
  | OpQuery :: r => run_ops r (snd (obj_isvalid o))
  | OpSet a :: r => o' <- obj_set_coords a o ;; run_ops r o'
  | OpEmpty :: r => run_ops r (obj_empty o)
  end.

(** The common points of two closed segments. *)
Definition shared (s t : seg RA) (q : pt RA) : Prop :=
  on_segment (si s) (sj s) q /\ on_segment (si t) (sj t) q.

(** What a correct answer to "the common part of s and t" is: None for disjoint segments, a point
    (rounded to 8 decimals) for segments sharing exactly that point, a segment of positive length
    that is exactly the shared set otherwise. *)
Definition is_common_part (s t : seg RA) (r : option (common RA)) : Prop :=
  match r with
  | None => forall q, ~ shared s t q
  | Some (CPoint p) => exists q : pt RA, p = @mkpt RA (Rround8 (px q)) (Rround8 (py q)) /\ forall q', shared s t q' <-> q' = q
  | Some (CSeg u) => si u <> sj u /\ forall q, shared s t q <-> on_segment (si u) (sj u) q
  | Some (COdd _) => False
  end.

(** Laws of the comparisons of an arithmetic on the numbers satisfying [ok]. *)
Record ord_laws (A : Arith) (ok : num -> Prop) : Prop := {
  ol_ltb_leb : forall a b : num, ok a -> ok b -> nltb a b = true -> nleb a b = true;
  ol_total : forall a b : num, ok a -> ok b -> nltb a b = false -> nleb b a = true;
  ol_refl : forall a : num, ok a -> nleb a a = true;
  ol_trans : forall a b c : num, ok a -> ok b -> ok c -> nleb a b = true -> nleb b c = true -> nleb a c = true
}.

(** The edges of the closed cycle through vs: consecutive vertices, and the last with the first. *)
Definition cycle_edges {X} (vs : list X) : list (X * X) :=
  match vs with [] => [] | v :: r => combine vs (r ++ [v]) end.

(** The segment s joins the two points of e, in either direction. *)
Definition joins {A : Arith} (e : pt A * pt A) (s : seg A) : Prop :=
  (si s = fst e /\ sj s = snd e) \/ (si s = snd e /\ sj s = fst e).

(** Two points are identical, or different also for the tolerant ==. *)
Definition separated (ps : list (pt RA)) : Prop :=
  forall p q, In p ps -> In q ps -> Rabs (px p - px q) < 1 / 10^5 -> Rabs (py p - py q) < 1 / 10^5 -> p = q.

(** p is at two positions of the list. *)
Definition occurs_twice {X} (p : X) (l : list X) : Prop :=
  exists k k', k <> k' /\ nth_error l k = Some p /\ nth_error l k' = Some p.

(** Twice the signed area (shoelace formula) of the closed polygon through vs. *)
Definition shoelace (vs : list (pt RA)) : R :=
  fold_right Rplus 0 (map (fun e : pt RA * pt RA => px (fst e) * py (snd e) - px (snd e) * py (fst e) : R) (cycle_edges vs)).

(** The same for integer vertices. *)
Definition zshoelace (vs : list (Z * Z)) : Z :=
  fold_right Z.add 0%Z (map (fun e => fst (fst e) * snd (snd e) - fst (snd e) * snd (fst e))%Z (cycle_edges vs)).

(** Polygon made of the plain segments of a closed cycle. *)
Definition cycle_poly {A : Arith} (vs : list (pt A)) : list (seg A) :=
  map (fun e => LineSegment (fst e) (snd e)) (cycle_edges vs).

(** The Points with these integer coordinates. *)
Definition zpts (A : Arith) (vs : list (Z * Z)) : list (pt A) :=
  map (fun p => Point_new (nofZ (fst p)) (nofZ (snd p))) vs.

(** x and y are at different positions of the list. *)
Definition distinct_positions {X} (l : list X) (x y : X) : Prop :=
  exists a b, a <> b /\ nth_error l a = Some x /\ nth_error l b = Some y.

(** The segments of r are those of g, in some order, some of them with exchanged end points. *)
Definition rearranged {A : Arith} (r g : list (seg A)) : Prop :=
  exists g', Permutation g' g /\ Forall2 (fun s s' => s = s' \/ s = mkseg (sc s') (sj s') (si s')) r g'.

(** (distance from the origin, x, y) of p is lexicographically not larger than that of q. *)
Definition nearer_origin (p q : pt RA) : Prop :=
  let o := @mkpt RA 0 0 in
  dist o p < dist o q \/ (dist o p = dist o q /\ (px p < px q \/ (px p = px q /\ py p <= py q))).
