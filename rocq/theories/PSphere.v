(** The intersection of a line and a sphere. *)
From Coq Require Import Reals ZArith Lra Lia Bool List Psatz.
From Verif Require Import Base Arith ArithR MPoint MLine MSphere Spec PPoint PLine.
Import ListNotations.
Local Open Scope R_scope.
#[local] Existing Instance RA.

Lemma sli_disc : forall (l1 l2 sp : vec3 RA) (r mu : R),
  let q := line_at l1 l2 mu in
  (v0 q - v0 sp) ^ 2 + (v1 q - v1 sp) ^ 2 + (v2 q - v2 sp) ^ 2 - r ^ 2 =
  sli_a l1 l2 * (mu * mu) + sli_b l1 l2 sp * mu + sli_c l1 sp r.
Proof. intros [a1 a2 a3] [b1 b2 b3] [c1 c2 c3] r mu q. unfold q, line_at, sli_a, sli_b, sli_c, sqr, n2. cbn [v0 v1 v2]. rring. Qed.

(*@ C57_sphere_line *)
(** C57: [on] is the sphere, the line is l1 + mu (l2 - l1).  If l1 = l2: NameError.  Otherwise one of
    three cases applies: no point of the line is on the sphere and (None, None) is returned; exactly one
    is (a tangent) and NameError is raised; exactly two are and both are returned. *)
Lemma sphere_line : forall (l1 l2 sp : vec3 RA) (r : R),
  let on (q : vec3 RA) := (v0 q - v0 sp) ^ 2 + (v1 q - v1 sp) ^ 2 + (v2 q - v2 sp) ^ 2 = r ^ 2 in
  (l1 = l2 -> sphere_line_intersection l1 l2 sp r = Err NameError) /\
  (l1 <> l2 ->
    (sphere_line_intersection l1 l2 sp r = Ok (None, None) /\ (forall mu, ~ on (line_at l1 l2 mu))) \/
    (sphere_line_intersection l1 l2 sp r = Err NameError /\ (exists mu, forall mu', on (line_at l1 l2 mu') <-> mu' = mu)) \/
    (exists mu nu, sphere_line_intersection l1 l2 sp r = Ok (Some (line_at l1 l2 mu), Some (line_at l1 l2 nu)) /\
       nu < mu /\ forall mu', on (line_at l1 l2 mu') <-> mu' = mu \/ mu' = nu)).
Proof.
  intros l1 l2 sp r on.
  assert (Q : forall mu, on (line_at l1 l2 mu) <-> sli_a l1 l2 * (mu * mu) + sli_b l1 l2 sp * mu + sli_c l1 sp r = 0).
  { intros mu. rewrite <- (sli_disc l1 l2 sp r mu). unfold on. split; intros H; [apply Rminus_diag_eq; exact H|apply Rminus_diag_uniq; exact H]. }
  unfold sphere_line_intersection.
  set (a := sli_a l1 l2 : R) in *. set (b := sli_b l1 l2 sp : R) in *. set (c := sli_c l1 sp r : R) in *.
  unfold n0, n2. ra_simpl. split.
  - intros E. assert (a = 0) as -> by (unfold a, sli_a, sqr; rewrite E; rring). assert (b = 0) as -> by (unfold b, sli_b; rewrite E; unfold n2; rring).
    replace (0 * 0 - 4 * 0 * c) with 0 by ring. unfold Rltb, Reqb. destruct (Rlt_dec 0 0); [lra|]. destruct (Req_EM_T 0 0); [reflexivity|lra].
  - intros NE. assert (AP : 0 < a).
    { destruct l1 as [x1 y1 z1], l2 as [x2 y2 z2]. unfold a, sli_a, sqr. cbn [v0 v1 v2]. ra_simpl.
      pose proof (Rle_0_sqr (x2 - x1)) as X. pose proof (Rle_0_sqr (y2 - y1)) as Y. pose proof (Rle_0_sqr (z2 - z1)) as Z. unfold Rsqr in X, Y, Z.
      destruct (Req_dec (x2 - x1) 0) as [E1|E1]; [destruct (Req_dec (y2 - y1) 0) as [E2|E2]; [destruct (Req_dec (z2 - z1) 0) as [E3|E3]|]|].
      - exfalso. apply NE. f_equal; lra.
      - pose proof (Rlt_0_sqr _ E3) as W. unfold Rsqr in W. lra.
      - pose proof (Rlt_0_sqr _ E2) as W. unfold Rsqr in W. lra.
      - pose proof (Rlt_0_sqr _ E1) as W. unfold Rsqr in W. lra. }
    assert (D : forall mu, 4 * a * (a * (mu * mu) + b * mu + c) = (2 * a * mu + b) * (2 * a * mu + b) - (b * b - 4 * a * c)) by (intros; ring).
    assert (Q' : forall mu, on (line_at l1 l2 mu) <-> (2 * a * mu + b) * (2 * a * mu + b) = b * b - 4 * a * c).
    { intros mu. rewrite Q. specialize (D mu). split; intros H; [rewrite H in D; lra|].
      assert (4 * a * (a * (mu * mu) + b * mu + c) = 0) as Z by lra. apply Rmult_integral in Z. destruct Z as [Z|Z]; [exfalso; lra|exact Z]. }
    set (i := b * b - 4 * a * c) in *. unfold Rltb, Reqb.
    destruct (Rlt_dec i 0) as [N|N].
    { left. split; [reflexivity|]. intros mu H. apply (proj1 (Q' mu)) in H. pose proof (Rle_0_sqr (2 * a * mu + b)) as W. unfold Rsqr in W. fold i in H. lra. }
    destruct (Req_EM_T i 0) as [Z|Z].
    { right; left. split; [reflexivity|]. exists (- b / (2 * a)). intros mu'. rewrite Q', Z. split; intros H.
      - assert (2 * a * mu' + b = 0) by (apply Rmult_integral in H; destruct H; auto). apply (Rmult_eq_reg_l (2 * a)); [|lra]. replace (2 * a * (- b / (2 * a))) with (- b) by (field; lra). lra.
      - rewrite H. field. lra. }
    right; right. destruct (Rlt_dec 0 i) as [P|]; [|lra].
    assert (PD : forall x, pdiv (A := RA) x (2 * a) = Ok (x / (2 * a))).
    { intros x. unfold pdiv, n0. ra_simpl. unfold Reqb. destruct (Req_EM_T (2 * a) 0); [lra|reflexivity]. }
    rewrite !PD. cbn [bind]. pose proof (sqrt_lt_R0 i P) as SP. pose proof (sqrt_sqrt i ltac:(lra)) as SS.
    exists ((- b + sqrt i) / (2 * a)), ((- b - sqrt i) / (2 * a)). split; [reflexivity|]. split.
    + apply Rmult_lt_compat_r; [apply Rinv_0_lt_compat; lra|lra].
    + intros mu. rewrite Q'. split; intros H.
      * rewrite <- SS in H. assert ((2 * a * mu + b - sqrt i) * (2 * a * mu + b + sqrt i) = 0) as M by lra.
        apply Rmult_integral in M. destruct M; [left|right]; apply (Rmult_eq_reg_l (2 * a)); try lra; field_simplify; lra.
      * rewrite <- SS. destruct H as [-> | ->]; field; lra.
Qed.

(*@ex C57_example *)
(** The unit sphere and the x axis: two points; the line y = 1, z = 0: tangent, NameError. *)
Lemma sphere_example :
  sphere_line_intersection (@mkv RA 0 1 0) (@mkv RA 1 1 0) (@mkv RA 0 0 0) 1 = Err NameError /\
  exists mu nu : R, nu < mu /\ (forall m : R, m * m = 1 <-> m = mu \/ m = nu) /\
   sphere_line_intersection (@mkv RA 0 0 0) (@mkv RA 1 0 0) (@mkv RA 0 0 0) 1 =
    Ok (Some (line_at (@mkv RA 0 0 0) (@mkv RA 1 0 0) mu), Some (line_at (@mkv RA 0 0 0) (@mkv RA 1 0 0) nu)).
Proof.
  split.
  - destruct (sphere_line (@mkv RA 0 1 0) (@mkv RA 1 1 0) (@mkv RA 0 0 0) 1) as [_ H].
    destruct H as [[_ H]|[[H _]|(mu & nu & _ & L & H)]]; [intros E; injection E; lra| |exact H|].
    + exfalso. apply (H 0). unfold line_at. cbn [v0 v1 v2]. ra_simpl. lra.
    + exfalso. assert (H1 := proj2 (H mu) (or_introl eq_refl)). assert (H2 := proj2 (H nu) (or_intror eq_refl)).
      unfold line_at in H1, H2. cbn [v0 v1 v2] in H1, H2. ra_simpl. assert (mu = 0) by nra. assert (nu = 0) by nra. lra.
  - destruct (sphere_line (@mkv RA 0 0 0) (@mkv RA 1 0 0) (@mkv RA 0 0 0) 1) as [_ H].
    assert (E : forall m : R, (v0 (line_at (@mkv RA 0 0 0) (@mkv RA 1 0 0) m) - 0) ^ 2 + (v1 (line_at (@mkv RA 0 0 0) (@mkv RA 1 0 0) m) - 0) ^ 2
      + (v2 (line_at (@mkv RA 0 0 0) (@mkv RA 1 0 0) m) - 0) ^ 2 = 1 ^ 2 <-> m * m = 1).
    { intros m. unfold line_at. cbn [v0 v1 v2]. ra_simpl. split; intros; nra. }
    destruct H as [[_ H]|[[_ (mu & H)]|(mu & nu & R & L & H)]]; [intros X; injection X; lra| | |].
    + exfalso. apply (H 1). apply E. lra.
    + exfalso. assert (1 = mu) by (apply H, E; lra). assert (-1 = mu) by (apply H, E; lra). lra.
    + exists mu, nu. split; [exact L|]. split; [|exact R]. intros m. rewrite <- E. apply H.
Qed.
