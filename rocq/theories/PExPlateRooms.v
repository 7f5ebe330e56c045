(** Concrete cases for the rooms of a vessel that a plate divides into two. *)
From Coq Require Import String Reals ZArith Lra Lia Bool List Psatz Permutation Arith.
From Verif Require Import Base Arith ArithR ArithF MPoint MLine MPoly MTri MGroup MCycles MBase MContain MRaum MRooms MVessel
  Spec SpecGroup SpecCycles SpecLoops SpecBase SpecRooms SpecRing SpecContain SpecHeap SpecStack SpecPlate SpecPlateRooms SpecWhole.
From Verif Require PWalk PExBase PExContain PPlateRooms.
Import ListNotations.
Local Open Scope list_scope.
Local Open Scope R_scope.
#[local] Existing Instance RA.

(** The triangulation library for the vessel of the example below, given the corners sorted by x: the
    triangles of a room and those of the outline. *)
Definition two_cones (A : Arith) : mesh_lib A := fun vs _ =>
  Some (vs, if Nat.eqb (length vs) 4 then [(0, 1, 2); (0, 2, 3)]%nat else [(0, 1, 3); (0, 3, 5); (0, 2, 4); (0, 4, 5)]%nat).

(*@ex C100_run_example *)
(** C100 (binary64): a vessel of two cones, 2 m wide at 0 m and at 6 m, with a plate at 4 m, where it is 4 m wide;
    its walls in the order of the parts.  The run makes two rooms without inner walls; R1 has its highest wall at 4 m and R2 its lowest,
    each has three outer walls. *)
Lemma two_rooms_run : forall L : Libm,
  let z k : @num (FA L) := nofZ k in
  let end_at h d := flachboden_segments (A := FA L) (z h) (z 0%Z) (z d) in
  let shell_at h d e k := wall_segments (mantel_segments (A := FA L) (z h) (z 0%Z) (z d) (z e) (z k)) in
  let parts := [end_at 0 2; end_at 6 2; end_at 4 4; shell_at 0 2 4 4; shell_at 4 4 2 2]%Z in
  let inside := decided_by (PExBase.some_draws L) in
  exists n1 n2 w1 w2, vessel_rooms (fun _ => PWalk.plain_sched (FA L)) 20 5 (PExBase.fixed nat) (PExBase.fixed (list nat)) (two_cones (FA L)) inside (fun _ _ _ => inside)
    (fun _ => PExBase.fixed (list (seg (FA L)))) (blocks 0 parts) (concat parts) = Ok (Some [mkraum "R1" n1 [] [w1] []; mkraum "R2" n2 [] [w2] []]) /\
    length w1 = 3%nat /\ length w2 = 3%nat /\
    (forall s, In s (concat w1) -> nleb (py (si s)) (z 4%Z) = true /\ nleb (py (sj s)) (z 4%Z) = true) /\
    (forall s, In s (concat w2) -> nleb (z 4%Z) (py (si s)) = true /\ nleb (z 4%Z) (py (sj s)) = true).
Proof.
  intros L z end_at shell_at parts inside.
  set (run := vessel_rooms _ _ _ _ _ _ _ _ _ _ _).
  assert (H : match run with
    | Ok (Some [mkraum a1 n1 [] [w1] []; mkraum a2 n2 [] [w2] []]) => String.eqb a1 "R1" && String.eqb a2 "R2" && Nat.eqb (length w1) 3 && Nat.eqb (length w2) 3 &&
        forallb (fun s => nleb (py (si s)) (z 4%Z) && nleb (py (sj s)) (z 4%Z)) (concat w1) && forallb (fun s => nleb (z 4%Z) (py (si s)) && nleb (z 4%Z) (py (sj s))) (concat w2)
    | _ => false end = true) by (vm_compute; reflexivity).
  destruct run as [[rooms|]|]; try discriminate H.
  destruct rooms as [|[a1 n1 [|] [|w1 [|]] [|]] [|[a2 n2 [|] [|w2 [|]] [|]] [|]]]; try discriminate H.
  apply andb_true_iff in H as [H H6]. apply andb_true_iff in H as [H H5]. apply andb_true_iff in H as [H H4]. apply andb_true_iff in H as [H H3]. apply andb_true_iff in H as [H1 H2].
  apply String.eqb_eq in H1, H2. apply Nat.eqb_eq in H3, H4. subst a1 a2. exists n1, n2, w1, w2. split; [reflexivity|]. split; [exact H3|]. split; [exact H4|].
  rewrite forallb_forall in H5, H6. split; intros s I; [apply H5 in I|apply H6 in I]; apply andb_true_iff in I; exact I.
Qed.
