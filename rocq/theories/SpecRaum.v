(** Vocabulary for the statements about rooms and parts. *)
From Coq Require Import String Bool List Arith Permutation.
From Verif Require Import Base Arith MPoint MLine MCycles MRaum SpecCycles.
Import ListNotations.

(** *** raum_dict_checker *)
(** {part: {category: rooms}}: a dict has each key once. *)
Definition proper {K N} (d : list (K * list (K * list N))) : Prop :=
  NoDup (map fst d) /\ forall k v, In (k, v) d -> NoDup (map fst v).
(** r is a room of the dict *)
Definition room_of {K N} (d : list (K * list (K * list N))) (r : N) : Prop :=
  exists k v kk vv, In (k, v) d /\ In (kk, vv) v /\ In r vv.
Definition at_most {N} (n : nat) (rooms : N -> Prop) : Prop :=
  exists l, List.length l <= n /\ forall r, rooms r -> In r l.
(** f renames the rooms: it maps rooms to rooms, different rooms to different rooms. *)
Definition renaming {N} (rooms : N -> Prop) (f : N -> N) : Prop :=
  (forall r, rooms r -> rooms (f r)) /\ (forall r s, rooms r -> rooms s -> f r = f s -> r = s).
(** After the renaming f the dict says the same as the reference about the rooms of the dict: same parts, same
    categories, and the same rooms in each. *)
Definition matches {K N} (f : N -> N) (d base : list (K * list (K * list N))) : Prop :=
  (forall k, In k (map fst d) <-> In k (map fst base)) /\
  forall k v w, In (k, v) d -> In (k, w) base ->
    (forall kk, In kk (map fst v) <-> In kk (map fst w)) /\
    forall kk vv ww, In (kk, vv) v -> In (kk, ww) w ->
      forall x, room_of d x -> (In x ww <-> exists r, In r vv /\ f r = x).

(** *** rooms *)
(** two cycles have a part in common *)
Definition overlap {P} (cycles : list (nat * list P)) (a b : nat) : Prop :=
  a <> b /\ exists la lb x, In (a, la) cycles /\ In (b, lb) cycles /\ In x la /\ In x lb.
(** x is a part of cycle a and of no other *)
Definition only_in {P} (cycles : list (nat * list P)) (a : nat) (x : P) : Prop :=
  (exists l, In (a, l) cycles /\ In x l) /\ forall b l, In (b, l) cycles -> In x l -> b = a.

(** *** raum_intex *)
(** the answers of is_internal_point, which uses random rays: yes in some call, yes in every call *)
Definition may {R X} (inside : nat -> R -> X -> res bool) (b : bool) (r : R) (p : X) : Prop := exists n, inside n r p = Ok b.
Definition must {R X} (inside : nat -> R -> X -> res bool) (b : bool) (r : R) (p : X) : Prop := forall n, inside n r p = Ok b.
(** the part has probing points of the kind, and for one of its segments all those of this segment pass
    (resp. one does not) *)
Definition all_pass {A : Arith} (ok : pt A -> Prop) (ps : list (intex_point A)) (ss : list (seg A)) : Prop :=
  ps <> [] /\ exists s, In s ss /\ forall q, In q ps -> seg_eqb (ip_segment q) s = true -> ok (ip_pt q).
Definition one_fails {A : Arith} (no : pt A -> Prop) (ps : list (intex_point A)) (ss : list (seg A)) : Prop :=
  exists s q, In s ss /\ In q ps /\ seg_eqb (ip_segment q) s = true /\ no (ip_pt q).
(** part p of room r, in one of its walls *)
Definition in_wall {A : Arith} (r : iroom A) (p : part A) : Prop := In p (ir_innen r) \/ In p (ir_aussen r).

(** *** from_dict *)
(** the keys a dict must have *)
Definition required (c : pclass) : list string :=
  match c with
  | CMantel | CStandZarge => ["name"; "pos_v"; "pos_h"; "d"; "h"]
  | CKlopperboden | CKorbbogenboden => ["name"; "pos_v"; "pos_h"; "d"; "h1"; "orient"]
  | CFlachboden | CRohrboden | CRaumEnde => ["name"; "pos_v"; "pos_h"; "d"]
  | CKegelKrempe => ["name"; "h_oben"; "h_unten"; "r"; "hts"; "kegel"]
  end%string.
