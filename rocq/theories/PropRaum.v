(** GENERATED by tools/gen_props.py from PRaum.v: the property theorems only. *)
From Coq Require Import String DecimalString DecimalNat ZArith Bool List Arith Permutation Lia.
From Verif Require Import Base Arith ArithR MPoint MLine MPoly MCycles MRaum SpecCycles SpecRaum PPoint PCycles PSplit PChecker.
Import ListNotations.
Local Open Scope list_scope.
From Verif Require Import PRaum.

(** C50: the rooms made are one for each cycle, in this order, named R1, R2, ...; the names are different; the
    outer wall of a room is the list of the parts of its cycle. *)
Theorem C50_rooms : forall (P : Type) (eqb : P -> P -> bool) (sic : list (nat * list P)) contained Hs rs,
  NoDup (map fst sic) -> raum_erstellen eqb sic contained Hs [] = Ok rs ->
  map r_cycle rs = map fst sic /\
  map r_name rs = map (fun n => String.append "R" (NilEmpty.string_of_uint (Nat.to_uint n))) (List.seq 1 (List.length sic)) /\
  NoDup (map r_name rs) /\
  map r_aussen rs = map (fun c => [snd c]) sic.
Proof. exact rooms_of_cycles. Qed.
Print Assumptions C50_rooms.

(** C50: when there are rooms already, nothing is changed. *)
Theorem C50_again : forall (P : Type) (eqb : P -> P -> bool) (sic : list (nat * list P)) contained Hs rs,
  rs <> [] -> raum_erstellen eqb sic contained Hs rs = Ok rs.
Proof. exact rooms_again. Qed.
Print Assumptions C50_again.

(** C50: the inner wall, with hashes that do not change.  A room whose cycle contains no cycle has none.  The inner
    wall of another room consists of the parts of the cycles inside it that overlap no other cycle, and of the
    parts, that are in one cycle only, of ALL overlapping cycles of the vessel, inside the room or not. *)
Theorem C50_inner : forall (P : Type) (eqb : P -> P -> bool) (sic : list (nat * list P)) contained Hs rs r cc,
  NoDup (map fst sic) -> decides_eq eqb -> (forall n, lists_all (Hs n) /\ consistent (Hs n)) ->
  raum_erstellen eqb sic contained Hs [] = Ok rs -> In r rs -> lookup Nat.eqb (r_cycle r) contained = Ok cc ->
  (cc = [] -> r_innen r = []) /\
  (cc <> [] -> forall x, In x (concat (r_innen r)) <->
     (exists a b, overlap sic a b /\ only_in sic a x) \/
     (exists z l, In z cc /\ (forall b, ~ overlap sic z b) /\ In (z, l) sic /\ In x l)).
Proof. exact rooms_inner. Qed.
Print Assumptions C50_inner.

(** C50: the rooms are made, without exception, if at most two pairs of cycles are found to overlap and the cycles
    inside each cycle are known. *)
Theorem C50_total : forall (P : Type) (eqb : P -> P -> bool) (sic : list (nat * list P)) contained Hs,
  (forall n, lists_all (Hs n) /\ List.length (overlaps_in_cycles eqb (Hs n) sic) <= 2) ->
  (forall c, In c (map fst sic) -> exists cc, lookup Nat.eqb c contained = Ok cc /\ forall z, In z cc -> In z (map fst sic)) ->
  exists rs, raum_erstellen eqb sic contained Hs [] = Ok rs.
Proof. exact rooms_total. Qed.
Print Assumptions C50_total.

(** C50: if no overlapping pair is found, the inner wall of a room is the list of the cycles inside its cycle, each
    with the list of its parts. *)
Theorem C50_plain : forall (P : Type) (eqb : P -> P -> bool) (sic : list (nat * list P)) contained Hs rs r cc,
  NoDup (map fst sic) -> (forall n, overlaps_in_cycles eqb (Hs n) sic = []) ->
  raum_erstellen eqb sic contained Hs [] = Ok rs -> In r rs -> lookup Nat.eqb (r_cycle r) contained = Ok cc ->
  Forall2 (fun z l => In (z, l) sic) cc (r_innen r).
Proof. exact rooms_plain. Qed.
Print Assumptions C50_plain.

(** C50, finding: a cycle 0 with a cycle inside, and three cycles each two of which share a part: no rooms are made. *)
Theorem C50_index_refuted : let sic := [(0, [1; 2; 3; 4]); (1, [10; 12; 13]); (2, [20; 12; 23]); (3, [30; 13; 23])] in
  let H := mkhashing (fun _ x => Z.of_nat x) (fun _ l => l) in
  raum_erstellen Nat.eqb sic [(0, [1; 2; 3]); (1, []); (2, []); (3, [])] (fun _ => H) [] = Err IndexError.
Proof. exact rooms_index. Qed.
Print Assumptions C50_index_refuted.

(** C50, finding: the cycles 2 and 3, which overlap and are not inside cycle 0, make up the inner wall of its room. *)
Theorem C50_outside_refuted : let sic := [(0, [1; 2; 3]); (1, [4; 5; 6]); (2, [7; 8; 9]); (3, [9; 10; 11])] in
  let contained := [(0, [1]); (1, []); (2, []); (3, [])] in
  let H := mkhashing (fun _ x => Z.of_nat x) (fun _ l => l) in
  option_map r_innen (match raum_erstellen Nat.eqb sic contained (fun _ => H) [] with Ok rs => hd_opt rs | Err _ => None end)
    = Some [[7; 8; 10; 11]; [4; 5; 6]].
Proof. exact rooms_outside. Qed.
Print Assumptions C50_outside_refuted.

(** C50: a room with two cycles inside; hashes that do not change *)
Example C50_example : let sic := [(0, [1; 2; 3]); (1, [4; 5]); (2, [6; 7])] in
  let contained := [(0, [1; 2]); (1, []); (2, [])] in
  let H := mkhashing (fun _ x => Z.of_nat x) (fun _ l => rev l) in
  NoDup (map fst sic) /\ decides_eq Nat.eqb /\ lists_all H /\ consistent H /\
  overlaps_in_cycles Nat.eqb H sic = [] /\
  raum_erstellen Nat.eqb sic contained (fun _ => H) [] = Ok [
    mkraum "R1" 0 [] [[1; 2; 3]] [[4; 5]; [6; 7]]; mkraum "R2" 1 [] [[4; 5]] []; mkraum "R3" 2 [] [[6; 7]] []]%string.
Proof. exact rooms_example. Qed.

(** C51: one entry for each name of a part. *)
Theorem C51_entries : forall (A : Arith) prepare inside (names : list string) (rooms : list (iroom A)) t,
  raum_intex prepare inside names rooms = Ok t -> NoDup (map fst t) /\ forall k, In k (map fst t) <-> In k names.
Proof. exact intex_entries. Qed.
Print Assumptions C51_entries.

(** C51: what a report means.  R is reported as innenraum (aussenraum) of a part k only if R is the name of a room with
    a part named k in its wall, which has internal (external) probing points and a segment all of whose probing
    points were found inside the room; as indifferent only if one of the indifferent points was found not inside.
    Conversely R is reported if the answers leave no choice. *)
Theorem C51_reported : forall (A : Arith) prepare inside (names : list string) (rooms : list (iroom A)) t k x R,
  raum_intex prepare inside names rooms = Ok t -> In (k, x) t ->
  let wall r p := In r rooms /\ ir_name r = R /\ in_wall r p /\ p_name p = k in
  ((In R (innenraum x) -> exists r p, wall r p /\ all_pass (may inside true r) (p_internal p) (p_segments p)) /\
   ((exists r p, wall r p /\ all_pass (must inside true r) (p_internal p) (p_segments p)) -> In R (innenraum x))) /\
  ((In R (aussenraum x) -> exists r p, wall r p /\ all_pass (may inside true r) (p_external p) (p_segments p)) /\
   ((exists r p, wall r p /\ all_pass (must inside true r) (p_external p) (p_segments p)) -> In R (aussenraum x))) /\
  ((In R (indifferent x) -> exists r p, wall r p /\ one_fails (may inside false r) (p_indifferent p) (p_segments p)) /\
   ((exists r p, wall r p /\ one_fails (must inside false r) (p_indifferent p) (p_segments p)) -> In R (indifferent x))).
Proof. exact intex_reported. Qed.
Print Assumptions C51_reported.

(** C51: no exception, if the tests raise none and the parts in the walls are parts of the vessel. *)
Theorem C51_total : forall (A : Arith) (prepare : iroom A -> res unit) inside (names : list string) (rooms : list (iroom A)),
  (forall r, In r rooms -> prepare r = Ok tt) -> (forall n r p, exists b, inside n r p = Ok b) ->
  (forall r p, In r rooms -> in_wall r p -> In (p_name p) names) ->
  exists t, raum_intex prepare inside names rooms = Ok t.
Proof. exact intex_total. Qed.
Print Assumptions C51_total.

(** C51, finding: if a segment of the part has no internal probing point but another has, every room with the
    part in its wall is reported as innenraum, even if no point is inside. *)
Theorem C51_vacuous_refuted : forall (A : Arith) (names : list string) (r : iroom A) p s t k x,
  in_wall r p -> p_name p = k -> p_internal p <> [] -> In s (p_segments p) ->
  (forall q, In q (p_internal p) -> seg_eqb (ip_segment q) s = false) ->
  raum_intex (fun _ => Ok tt) (fun _ _ _ => Ok false) names [r] = Ok t -> In (k, x) t -> In (ir_name r) (innenraum x).
Proof. exact intex_vacuous. Qed.
Print Assumptions C51_vacuous_refuted.

(** C51: a wall with one probing point of each kind in the wall of two rooms, in exact arithmetic; one test says yes for
    the first room only *)
Example C51_example : forall s : seg RA, let q := mkip (si s) s in
  let ma := mkpart "ma1"%string [s] [q] [] [q] in
  let r1 := mkiroom "R1"%string [] [ma] in let r2 := mkiroom "R2"%string [ma] [] in
  let inside (n : nat) (r : iroom RA) (p : pt RA) := Ok (String.eqb (ir_name r) "R1"%string) in
  raum_intex (fun _ => Ok tt) inside ["ma1"; "bo1"]%string [r1; r2] =
    Ok [("ma1", mkintex ["R1"] [] ["R2"]); ("bo1", mkintex [] [] [])]%string.
Proof. exact intex_example. Qed.

(** C56: a dict without one of the required keys is rejected with an Exception, whatever else it contains. *)
Theorem C56_missing : forall (V : Type) build sorted_hts has_other c (d : list (string * V)) k,
  In k (required c) -> ~ In k (map fst d) -> from_dict build sorted_hts has_other c d = Err OtherException.
Proof. exact from_dict_missing. Qed.
Print Assumptions C56_missing.

(** C56: if from_dict returns an object, every required key was there, every key of the dict is an attribute of the
    object, and the attributes set by the constructor are the required keys with the values of the dict (the
    list hts of a KegelKrempe sorted). *)
Theorem C56_result : forall (V : Type) build sorted_hts has_other c (d : list (string * V)) o,
  NoDup (map fst d) -> from_dict build sorted_hts has_other c d = Ok o ->
  map fst (o_attrs o) = required c /\
  (forall k v, In k (required c) -> In (k, v) d ->
     if String.eqb k "hts" then exists v', sorted_hts v = Ok v' /\ In (k, v') (o_attrs o) else In (k, v) (o_attrs o)) /\
  (forall k, In k (map fst d) -> In k (required c) \/ has_other o k = Ok true).
Proof. exact from_dict_result. Qed.
Print Assumptions C56_result.

(** C56: for a class other than Rohrboden and KegelKrempe: if the required keys are there and the rest of the
    constructor succeeds, then the dict is accepted if its other keys are attributes, and rejected with an
    AssertionError if one is not.  An exception of the constructor comes through (a KeyError as an Exception). *)
Theorem C56_accepted : forall (V : Type) build sorted_hts has_other c (d : list (string * V)),
  NoDup (map fst d) -> c <> CRohrboden -> c <> CKegelKrempe -> (forall k, In k (required c) -> In k (map fst d)) ->
  exists o, (forall k v, In k (required c) -> In (k, v) d -> In (k, v) (o_attrs o)) /\ map fst (o_attrs o) = required c /\
  (forall e, build (o_class o) (o_attrs o) = Err e -> from_dict build sorted_hts has_other c d = Err (match e with KeyError => OtherException | _ => e end)) /\
  (build (o_class o) (o_attrs o) = Ok tt ->
   ((forall k, In k (map fst d) -> In k (required c) \/ has_other o k = Ok true) -> from_dict build sorted_hts has_other c d = Ok o) /\
   ((forall k, In k (map fst d) -> exists b, has_other o k = Ok b) -> (exists k, In k (map fst d) /\ ~ In k (required c) /\ has_other o k = Ok false) ->
     from_dict build sorted_hts has_other c d = Err AssertionError)).
Proof. exact from_dict_accepted. Qed.
Print Assumptions C56_accepted.

(** C56, finding: a Rohrboden cannot be made; with all required keys the result is a TypeError. *)
Theorem C56_rohrboden_refuted : forall (V : Type) build sorted_hts has_other (d : list (string * V)),
  (forall o, from_dict build sorted_hts has_other CRohrboden d <> Ok o) /\
  ((forall k, In k (required CRohrboden) -> In k (map fst d)) -> from_dict build sorted_hts has_other CRohrboden d = Err TypeError).
Proof. exact from_dict_rohrboden. Qed.
Print Assumptions C56_rohrboden_refuted.

(** C56, finding: StandZarge.from_dict makes a Mantel. *)
Theorem C56_standzarge_refuted : forall (V : Type) build sorted_hts has_other (d : list (string * V)) o,
  from_dict build sorted_hts has_other CStandZarge d = Ok o -> o_class o = CMantel.
Proof. exact from_dict_standzarge. Qed.
Print Assumptions C56_standzarge_refuted.

(** C56: a Flachboden, with the key typ, which is an attribute of every part, and with a key that is none *)
Example C56_example : let build (c : pclass) (kw : list (string * nat)) := Ok tt in
  let has (o : object nat) x := Ok (String.eqb x "typ") in
  let d := [("d", 2); ("name", 7); ("pos_v", 0); ("pos_h", 1)]%string in
  from_dict build (fun v => Ok v) has CFlachboden (("typ", 9) :: d)%string =
    Ok (mkobject CFlachboden [("name", 7); ("pos_v", 0); ("pos_h", 1); ("d", 2)]%string) /\
  from_dict build (fun v => Ok v) has CFlachboden (("h", 9) :: d)%string = Err AssertionError /\
  from_dict build (fun v => Ok v) has CMantel d = Err OtherException.
Proof. exact from_dict_example. Qed.
