(** GENERATED by tools/gen_props.py from PExPlateRooms.v: the property theorems only. *)
From Coq Require Import String Reals ZArith Lra Lia Bool List Psatz Permutation Arith.
From Verif Require Import Base Arith ArithR ArithF MPoint MLine MPoly MTri MGroup MCycles MBase MContain MRaum MRooms MVessel
  Spec SpecGroup SpecCycles SpecLoops SpecBase SpecRooms SpecRing SpecContain SpecHeap SpecStack SpecPlate SpecPlateRooms SpecWhole.
From Verif Require PWalk PExBase PExContain PPlateRooms.
Import ListNotations.
Local Open Scope list_scope.
Local Open Scope R_scope.
#[local] Existing Instance RA.
From Verif Require Import PExPlateRooms.

(** C100 (binary64): a vessel of two cones, 2 m wide at 0 m and at 6 m, with a plate at 4 m, where it is 4 m wide;
    its walls in the order of the parts.  The run makes two rooms without inner walls; R1 has its highest wall at 4 m and R2 its lowest,
    each has three outer walls. *)
Example C100_run_example : forall L : Libm,
  let z k : @num (FA L) := nofZ k in
  let end_at h d := flachboden_segments (A := FA L) (z h) (z 0%Z) (z d) in
  let shell_at h d e k := wall_segments (mantel_segments (A := FA L) (z h) (z 0%Z) (z d) (z e) (z k)) in
  let parts := [end_at 0 2; end_at 6 2; end_at 4 4; shell_at 0 2 4 4; shell_at 4 4 2 2]%Z in
  let inside := decided_by (PExBase.some_draws L) in
  exists n1 n2 w1 w2, vessel_rooms (fun _ => PWalk.plain_sched (FA L)) 20 5 (PExBase.fixed nat) (PExBase.fixed (list nat)) (two_cones (FA L)) inside (fun _ _ _ => inside)
    (fun _ => PExBase.fixed (list (seg (FA L)))) (blocks 0 parts) (concat parts) = Ok (Some [mkraum "R1" n1 [] [w1] []; mkraum "R2" n2 [] [w2] []]) /\
    length w1 = 3%nat /\ length w2 = 3%nat /\
    (forall s, In s (concat w1) -> nleb (py (si s)) (z 4%Z) = true /\ nleb (py (sj s)) (z 4%Z) = true) /\
    (forall s, In s (concat w2) -> nleb (z 4%Z) (py (si s)) = true /\ nleb (z 4%Z) (py (sj s)) = true).
Proof. exact two_rooms_run. Qed.
