(** The exact-real instance. *)
From Coq Require Import Reals ZArith Lra Lia Bool R_Ifp Psatz.
From Verif Require Import Arith.
Local Open Scope R_scope.

Definition Rltb (x y : R) : bool := if Rlt_dec x y then true else false.
Definition Rleb (x y : R) : bool := if Rle_dec x y then true else false.
Definition Reqb (x y : R) : bool := if Req_EM_T x y then true else false.

(** Nearest integer, ties to even. *)
Definition Rnearest (x : R) : Z :=
  let f := Int_part x in
  let d := x - IZR f in
  if Rlt_dec d (1/2) then f
  else if Rlt_dec (1/2) d then (f + 1)%Z
  else if Z.even f then f else (f + 1)%Z.

(** round(x, 8) *)
Definition Rround8 (x : R) : R := IZR (Rnearest (x * 100000000)) / 100000000.

(** math.atan2 on reals; atan2(0, 0) = 0. *)
Definition Ratan2 (y x : R) : R :=
  if Rlt_dec 0 x then atan (y / x)
  else if Rlt_dec x 0 then (if Rle_dec 0 y then atan (y / x) + PI else atan (y / x) - PI)
  else if Rlt_dec 0 y then PI / 2
  else if Rlt_dec y 0 then - (PI / 2) else 0.

Definition Rmodulo (x y : R) : R := x - IZR (Int_part (x / y)) * y.

Definition RA : Arith := {|
  num := R; nadd := Rplus; nsub := Rminus; nmul := Rmult; ndiv := Rdiv; nopp := Ropp;
  nabs := Rabs; nsqrt := sqrt; nltb := Rltb; nleb := Rleb; neqb := Reqb; nofZ := IZR;
  nround8 := Rround8; nsin := sin; ncos := cos; nacos := acos; natan2 := Ratan2;
  npi := PI; nmod := Rmodulo |}.

Lemma Rltb_true : forall x y, Rltb x y = true <-> x < y.
Proof. intros; unfold Rltb; destruct (Rlt_dec x y); split; intros; try discriminate; auto; contradiction. Qed.
Lemma Rltb_false : forall x y, Rltb x y = false <-> y <= x.
Proof. intros; unfold Rltb; destruct (Rlt_dec x y); split; intros; try discriminate; auto; lra. Qed.
Lemma Rleb_true : forall x y, Rleb x y = true <-> x <= y.
Proof. intros; unfold Rleb; destruct (Rle_dec x y); split; intros; try discriminate; auto; contradiction. Qed.
Lemma Rleb_false : forall x y, Rleb x y = false <-> y < x.
Proof. intros; unfold Rleb; destruct (Rle_dec x y); split; intros; try discriminate; auto; lra. Qed.
Lemma Reqb_true : forall x y, Reqb x y = true <-> x = y.
Proof. intros; unfold Reqb; destruct (Req_EM_T x y); split; intros; try discriminate; auto; contradiction. Qed.
Lemma Reqb_false : forall x y, Reqb x y = false <-> x <> y.
Proof. intros; unfold Reqb; destruct (Req_EM_T x y); split; intros; try discriminate; auto; contradiction. Qed.
Lemma Reqb_refl : forall x, Reqb x x = true.
Proof. intros; apply Reqb_true; reflexivity. Qed.
Lemma Reqb_sym : forall x y, Reqb x y = Reqb y x.
Proof. intros; unfold Reqb; destruct (Req_EM_T x y), (Req_EM_T y x); congruence. Qed.

(** Turn the projections of [RA] into the operations of R. *)
Ltac ra_simpl :=
  cbn [num nadd nsub nmul ndiv nopp nabs nsqrt nltb nleb neqb nofZ nround8 nsin ncos nacos natan2 npi nmod RA] in *.

Lemma Rabs_le_inv : forall x y, Rabs x <= y -> - y <= x <= y.
Proof. intros x y H. unfold Rabs in H. destruct (Rcase_abs x); lra. Qed.

(** See an equation between elements of [num RA] as one between reals. *)
Ltac toR := ra_simpl; match goal with |- ?a = ?b => change (@eq R a b) end.
Ltac rring := toR; apply Rminus_diag_uniq; ring.
Ltac rfield := toR; apply Rminus_diag_uniq; field.

(** ** Facts on rounding *)

Lemma Int_part_spec : forall x, IZR (Int_part x) <= x < IZR (Int_part x) + 1.
Proof. intros. destruct (base_Int_part x). lra. Qed.

Lemma Int_part_unique : forall x n, IZR n <= x < IZR n + 1 -> Int_part x = n.
Proof.
  intros x n [H1 H2]. destruct (Int_part_spec x) as [H3 H4].
  assert (IZR (Int_part x) < IZR n + 1) as A by lra.
  assert (IZR n < IZR (Int_part x) + 1) as B by lra.
  rewrite <- plus_IZR in A, B. apply lt_IZR in A, B. lia.
Qed.

Lemma Rnearest_err : forall x, Rabs (IZR (Rnearest x) - x) <= 1/2.
Proof.
  intros. unfold Rnearest. destruct (Int_part_spec x).
  destruct (Rlt_dec _ _); [|destruct (Rlt_dec _ _); [|destruct (Z.even _)]];
  rewrite ?plus_IZR; apply Rabs_le; lra.
Qed.

Lemma Rnearest_IZR : forall n, Rnearest (IZR n) = n.
Proof.
  intros. unfold Rnearest. rewrite (Int_part_unique (IZR n) n) by lra.
  destruct (Rlt_dec _ _); auto. exfalso; apply n0; lra.
Qed.

Lemma Int_part_mono : forall x y, x <= y -> (Int_part x <= Int_part y)%Z.
Proof.
  intros. destruct (Int_part_spec x), (Int_part_spec y).
  assert (IZR (Int_part x) < IZR (Int_part y) + 1) as A by lra.
  rewrite <- plus_IZR in A. apply lt_IZR in A. lia.
Qed.

Lemma Rnearest_mono : forall x y, x <= y -> (Rnearest x <= Rnearest y)%Z.
Proof.
  intros x y H. pose proof (Int_part_mono _ _ H) as M.
  destruct (Z.eq_dec (Int_part x) (Int_part y)) as [E|NE].
  - unfold Rnearest. rewrite <- E.
    repeat destruct (Rlt_dec _ _); try lia; try (exfalso; lra);
    destruct (Z.even _); try lia.
  - assert (Int_part x + 1 <= Int_part y)%Z by lia.
    assert (Rnearest x <= Int_part x + 1)%Z.
    { unfold Rnearest. repeat destruct (Rlt_dec _ _); try lia. destruct (Z.even _); lia. }
    assert (Int_part y <= Rnearest y)%Z.
    { unfold Rnearest. repeat destruct (Rlt_dec _ _); try lia. destruct (Z.even _); lia. }
    lia.
Qed.

(** Nearest-even is odd: [Rnearest (-x) = - Rnearest x]. *)
Lemma Rnearest_opp : forall x, Rnearest (- x) = (- Rnearest x)%Z.
Proof.
  intros x. destruct (Int_part_spec x) as [A B].
  set (f := Int_part x) in *.
  destruct (Req_EM_T x (IZR f)) as [E|NE].
  - rewrite E at 1. rewrite <- opp_IZR, Rnearest_IZR.
    rewrite E. rewrite Rnearest_IZR. reflexivity.
  - assert (Int_part (-x) = (- f - 1)%Z) as I.
    { apply Int_part_unique. rewrite minus_IZR, opp_IZR. lra. }
    unfold Rnearest. rewrite I. fold f.
    rewrite minus_IZR, opp_IZR.
    replace (Z.even (- f - 1)) with (negb (Z.even f)).
    2:{ rewrite Z.even_sub, Z.even_opp. destruct (Z.even f); reflexivity. }
    repeat destruct (Rlt_dec _ _); try lia; try (exfalso; lra).
    destruct (Z.even f); simpl; lia.
Qed.

(** Nearest commutes with adding an even integer (an odd one may flip a tie). *)
Lemma Rnearest_unique : forall x n, Rabs (IZR n - x) < 1/2 -> Rnearest x = n.
Proof.
  intros x n H. pose proof (Rnearest_err x) as E.
  apply Rabs_def2 in H. apply Rabs_le_inv in E.
  assert (IZR (Rnearest x) < IZR n + 1) as A by lra.
  assert (IZR n < IZR (Rnearest x) + 1) as B by lra.
  rewrite <- plus_IZR in A, B. apply lt_IZR in A, B. lia.
Qed.

Definition on_grid (x : R) : Prop := exists k : Z, x = IZR k / 100000000.

Lemma Rround8_grid : forall x, on_grid (Rround8 x).
Proof. intros; unfold Rround8; eexists; reflexivity. Qed.

Lemma Rround8_err : forall x, Rabs (Rround8 x - x) <= 5 / 1000000000.
Proof.
  intros. unfold Rround8. pose proof (Rnearest_err (x * 100000000)) as H.
  apply Rabs_le_inv in H. apply Rabs_le. lra.
Qed.

Lemma Rround8_id : forall x, on_grid x -> Rround8 x = x.
Proof.
  intros x [k E]. unfold Rround8. rewrite E.
  replace (IZR k / 100000000 * 100000000) with (IZR k) by lra.
  rewrite Rnearest_IZR. reflexivity.
Qed.

Lemma Rround8_idem : forall x, Rround8 (Rround8 x) = Rround8 x.
Proof. intros; apply Rround8_id, Rround8_grid. Qed.

Lemma Rround8_mono : forall x y, x <= y -> Rround8 x <= Rround8 y.
Proof.
  intros. unfold Rround8. apply Rmult_le_compat_r; [lra|]. apply IZR_le, Rnearest_mono. lra.
Qed.

Lemma Rround8_opp : forall x, Rround8 (- x) = - Rround8 x.
Proof.
  intros. unfold Rround8. rewrite Ropp_mult_distr_l_reverse, Rnearest_opp, opp_IZR. lra.
Qed.

Lemma grid_IZR : forall n, on_grid (IZR n).
Proof. intros; exists (n * 100000000)%Z. rewrite mult_IZR. lra. Qed.
Lemma grid_plus : forall x y, on_grid x -> on_grid y -> on_grid (x + y).
Proof. intros x y [a ->] [b ->]; exists (a + b)%Z; rewrite plus_IZR; lra. Qed.
Lemma grid_minus : forall x y, on_grid x -> on_grid y -> on_grid (x - y).
Proof. intros x y [a ->] [b ->]; exists (a - b)%Z; rewrite minus_IZR; lra. Qed.
Lemma grid_opp : forall x, on_grid x -> on_grid (- x).
Proof. intros x [a ->]; exists (- a)%Z; rewrite opp_IZR; lra. Qed.
Lemma grid_mulZ : forall n x, on_grid x -> on_grid (IZR n * x).
Proof. intros n x [a ->]; exists (n * a)%Z; rewrite mult_IZR; lra. Qed.
Lemma grid_round8 : forall x, on_grid (Rround8 x).
Proof. exact Rround8_grid. Qed.
#[export] Hint Resolve grid_IZR grid_plus grid_minus grid_opp grid_mulZ grid_round8 : grid.
