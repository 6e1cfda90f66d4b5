(** Real-number helpers: floor, Python's float modulo and round, numpy's
    arctan2, and the periodicity of sine and cosine over the integers. *)
From Coq Require Import Reals ZArith Lia Lra Psatz.
Open Scope R_scope.

(** ** Floor and modulo *)

Definition floorZ (x : R) : Z := (up x - 1)%Z.

Lemma floorZ_spec : forall x, IZR (floorZ x) <= x < IZR (floorZ x) + 1.
Proof.
  intros x; unfold floorZ; rewrite minus_IZR; destruct (archimed x) as [H1 H2]; lra.
Qed.

Lemma floorZ_unique : forall x n, IZR n <= x < IZR n + 1 -> floorZ x = n.
Proof.
  intros x n [H1 H2]; pose proof (floorZ_spec x) as [H3 H4].
  assert (A : IZR (floorZ x) < IZR (n + 1)) by (rewrite plus_IZR; lra).
  assert (B : IZR n < IZR (floorZ x + 1)) by (rewrite plus_IZR; lra).
  apply lt_IZR in A; apply lt_IZR in B; lia.
Qed.

Lemma floorZ_IZR : forall n, floorZ (IZR n) = n.
Proof. intros n; apply floorZ_unique; lra. Qed.

Lemma floorZ_plus : forall x n, floorZ (x + IZR n) = (floorZ x + n)%Z.
Proof.
  intros x n; apply floorZ_unique; rewrite plus_IZR; pose proof (floorZ_spec x); lra.
Qed.

(** Python's [x % S] on floats, for S > 0, without rounding error. *)
Definition rmod (x S : R) : R := x - S * IZR (floorZ (x / S)).

Lemma rmod_range : forall x S, 0 < S -> 0 <= rmod x S < S.
Proof.
  intros x S HS; unfold rmod; pose proof (floorZ_spec (x / S)) as [H1 H2].
  assert (E : x = S * (x / S)) by (field; lra).
  split.
  - rewrite E at 1; apply (Rmult_le_compat_l S) in H1; lra.
  - rewrite E at 1; apply (Rmult_lt_compat_l S) in H2; lra.
Qed.

Lemma rmod_small : forall x S, 0 <= x < S -> rmod x S = x.
Proof.
  intros x S [H1 H2]; unfold rmod; rewrite (floorZ_unique (x / S) 0); [lra|].
  assert (0 < S) by lra; split.
  - apply Rmult_le_reg_r with S; [lra|]; unfold Rdiv; rewrite Rmult_assoc, Rinv_l; lra.
  - apply Rmult_lt_reg_r with S; [lra|]; unfold Rdiv; rewrite Rmult_assoc, Rinv_l; lra.
Qed.

Lemma rmod_plus : forall x S n, 0 < S -> rmod (x + S * IZR n) S = rmod x S.
Proof.
  intros x S n HS; unfold rmod.
  replace ((x + S * IZR n) / S) with (x / S + IZR n) by (field; lra).
  rewrite floorZ_plus, plus_IZR; ring.
Qed.

(** [x] and [x % S] differ by a multiple of [S]. *)
Lemma rmod_cong : forall x S, 0 < S -> exists n, x = rmod x S + S * IZR n.
Proof. intros x S HS; exists (floorZ (x / S)); unfold rmod; ring. Qed.

Lemma rmod_eq : forall x y S n, 0 < S -> x = y + S * IZR n -> rmod x S = rmod y S.
Proof. intros x y S n HS ->; apply rmod_plus; exact HS. Qed.

Lemma rmod_unique : forall x y S n, 0 <= y < S -> x = y + S * IZR n -> rmod x S = y.
Proof.
  intros x y S n Hy E; rewrite (rmod_eq x y S n), rmod_small; auto; lra.
Qed.

Lemma rmod_0 : forall S, 0 < S -> rmod 0 S = 0.
Proof. intros S HS; apply rmod_small; lra. Qed.

Lemma rmod_mult : forall S n, 0 < S -> rmod (S * IZR n) S = 0.
Proof. intros S n HS; apply (rmod_unique _ 0 S n); lra. Qed.

(** Two values in [0, S) that differ by a multiple of S are equal. *)
Lemma cong_range_eq : forall x y S n, 0 <= x < S -> 0 <= y < S -> x = y + S * IZR n -> x = y.
Proof.
  intros x y S n Hx Hy E; rewrite <- (rmod_small x S Hx); exact (rmod_unique x y S n Hy E).
Qed.

(** Python's round: nearest integer, ties to even. *)
Definition pyround (x : R) : Z :=
  let n := floorZ x in
  let d := x - IZR n in
  if Rlt_dec d (1 / 2) then n
  else if Rlt_dec (1 / 2) d then (n + 1)%Z
  else if Z.even n then n else (n + 1)%Z.

Lemma pyround_IZR : forall n, pyround (IZR n) = n.
Proof.
  intros n; unfold pyround; rewrite floorZ_IZR.
  destruct (Rlt_dec (IZR n - IZR n) (1 / 2)); [reflexivity|lra].
Qed.

Lemma pyround_near : forall x n, Rabs (x - IZR n) < 1 / 2 -> pyround x = n.
Proof.
  intros x n H; unfold pyround; apply Rabs_def2 in H as [H1 H2].
  destruct (Rle_dec (IZR n) x) as [L|L].
  - rewrite (floorZ_unique x n) by lra.
    destruct (Rlt_dec (x - IZR n) (1 / 2)); [reflexivity|lra].
  - rewrite (floorZ_unique x (n - 1)) by (rewrite minus_IZR; lra); rewrite minus_IZR.
    destruct (Rlt_dec (x - (IZR n - 1)) (1 / 2)); [lra|].
    destruct (Rlt_dec (1 / 2) (x - (IZR n - 1))); [lia|lra].
Qed.

(** ** Sine and cosine *)

Lemma cos_2PI_Z : forall x n, cos (x + 2 * PI * IZR n) = cos x.
Proof.
  intros x n; destruct (Z_le_gt_dec 0 n) as [H|H].
  - rewrite <- (cos_period x (Z.to_nat n)), INR_IZR_INZ, Z2Nat.id by lia; f_equal; ring.
  - rewrite <- (cos_period (x + 2 * PI * IZR n) (Z.to_nat (- n))), INR_IZR_INZ, Z2Nat.id by lia.
    f_equal; rewrite opp_IZR; ring.
Qed.

Lemma sin_2PI_Z : forall x n, sin (x + 2 * PI * IZR n) = sin x.
Proof.
  intros x n; destruct (Z_le_gt_dec 0 n) as [H|H].
  - rewrite <- (sin_period x (Z.to_nat n)), INR_IZR_INZ, Z2Nat.id by lia; f_equal; ring.
  - rewrite <- (sin_period (x + 2 * PI * IZR n) (Z.to_nat (- n))), INR_IZR_INZ, Z2Nat.id by lia.
    f_equal; rewrite opp_IZR; ring.
Qed.

Lemma cos_cong : forall x y n, x = y + 2 * PI * IZR n -> cos x = cos y.
Proof. intros x y n ->; apply cos_2PI_Z. Qed.

Lemma sin_cong : forall x y n, x = y + 2 * PI * IZR n -> sin x = sin y.
Proof. intros x y n ->; apply sin_2PI_Z. Qed.

Lemma sin_PI_Z : forall n, sin (PI * IZR n) = 0.
Proof.
  intros n; destruct (Z.Even_or_Odd n) as [[m ->]|[m ->]].
  - rewrite mult_IZR; rewrite (sin_cong _ 0 m) by ring; apply sin_0.
  - rewrite plus_IZR, mult_IZR; rewrite (sin_cong _ PI m) by ring; apply sin_PI.
Qed.

Lemma cos_PI_even : forall m, cos (PI * IZR (2 * m)) = 1.
Proof. intros m; rewrite mult_IZR, (cos_cong _ 0 m) by ring; apply cos_0. Qed.

Lemma cos_PI_odd : forall m, cos (PI * IZR (2 * m + 1)) = -1.
Proof. intros m; rewrite plus_IZR, mult_IZR, (cos_cong _ PI m) by ring; apply cos_PI. Qed.

(** (-1)^n as the value of cos (n pi) *)
Definition signZ (n : Z) : R := if Z.even n then 1 else -1.

Lemma cos_PI_Z : forall n, cos (PI * IZR n) = signZ n.
Proof.
  intros n; unfold signZ; destruct (Z.even n) eqn:E.
  - apply Z.even_spec in E as [m ->]; apply cos_PI_even.
  - assert (O : Z.odd n = true) by (rewrite <- Z.negb_even, E; reflexivity).
    apply Z.odd_spec in O as [m ->]; apply cos_PI_odd.
Qed.

Lemma signZ_add : forall a b, signZ (a + b) = signZ a * signZ b.
Proof.
  intros a b; unfold signZ; rewrite Z.even_add; destruct (Z.even a), (Z.even b); cbn; ring.
Qed.

Lemma signZ_sq : forall a, signZ a * signZ a = 1.
Proof. intros a; unfold signZ; destruct (Z.even a); ring. Qed.

Lemma cos_add_PI_Z : forall x n, cos (x + PI * IZR n) = signZ n * cos x.
Proof. intros x n; rewrite cos_plus, cos_PI_Z, sin_PI_Z; ring. Qed.

Lemma sin_add_PI_Z : forall x n, sin (x + PI * IZR n) = signZ n * sin x.
Proof. intros x n; rewrite sin_plus, cos_PI_Z, sin_PI_Z; ring. Qed.

Lemma sin2cos2 : forall x, sin x * sin x + cos x * cos x = 1.
Proof. intros x; pose proof (sin2_cos2 x) as H; unfold Rsqr in H; exact H. Qed.

(** Equal sine and cosine: equal angle modulo 2 pi. *)
Lemma cos_1_range : forall x, 0 <= x < 2 * PI -> cos x = 1 -> x = 0.
Proof.
  intros x [H1 H2] C; destruct (Req_dec x 0) as [|N]; [assumption|exfalso].
  assert (S : sin (x / 2) = 0).
  { assert (Q : 1 - 2 * sin (x / 2) * sin (x / 2) = 1).
    { rewrite <- (cos_2a_sin (x / 2)), <- C; f_equal; field. }
    assert (Z0 : sin (x / 2) * sin (x / 2) = 0) by lra.
    apply Rmult_integral in Z0 as [|]; assumption. }
  pose proof PI_RGT_0; pose proof (sin_gt_0 (x / 2) ltac:(lra) ltac:(lra)); lra.
Qed.

Lemma angle_unique : forall x y, cos x = cos y -> sin x = sin y ->
  exists n, x = y + 2 * PI * IZR n.
Proof.
  intros x y C S; pose proof PI_RGT_0 as P.
  assert (D : cos (x - y) = 1) by (rewrite cos_minus, C, S; pose proof (sin2cos2 y); lra).
  destruct (rmod_cong (x - y) (2 * PI) ltac:(lra)) as [n E]; exists n.
  rewrite E, cos_2PI_Z in D; apply cos_1_range in D; [lra|apply rmod_range; lra].
Qed.

(** ** arctan2 *)

(** numpy.arctan2(y, x) on finite arguments (signed zeros are not distinguished). *)
Definition atan2 (y x : R) : R :=
  if Rlt_dec 0 x then atan (y / x)
  else if Rlt_dec x 0 then
    (if Rle_dec 0 y then atan (y / x) + PI else atan (y / x) - PI)
  else if Rlt_dec 0 y then PI / 2
  else if Rlt_dec y 0 then - (PI / 2) else 0.

Lemma atan_sc : forall t, cos (atan t) * t = sin (atan t) /\ 0 < cos (atan t).
Proof.
  intros t; pose proof (atan_bound t) as [H1 H2].
  assert (C : 0 < cos (atan t)) by (apply cos_gt_0; lra); split; [|exact C].
  rewrite <- (tan_atan t) at 2; unfold tan; field; lra.
Qed.

Lemma sq_1 : forall s, s * s = 1 -> s = 1 \/ s = -1.
Proof.
  intros s H; assert (E : (s - 1) * (s + 1) = 0) by lra.
  apply Rmult_integral in E as [E|E]; [left|right]; lra.
Qed.

Lemma atan2_sc : forall y x, y * y + x * x = 1 ->
  cos (atan2 y x) = x /\ sin (atan2 y x) = y.
Proof.
  intros y x H; unfold atan2.
  assert (G : x <> 0 -> exists s, s * s = 1 /\ 0 < s * x /\
    cos (atan (y / x)) = s * x /\ sin (atan (y / x)) = s * y).
  { intros Hx; destruct (atan_sc (y / x)) as [E P].
    set (c := cos (atan (y / x))) in *; exists (c / x).
    assert (A : c * c * (y * y + x * x) = x * x).
    { pose proof (sin2cos2 (atan (y / x))) as Q; fold c in Q; rewrite <- E in Q.
      replace (c * c * (y * y + x * x)) with ((c * (y / x) * (c * (y / x)) + c * c) * (x * x)) by (field; lra).
      rewrite Q; ring. }
    rewrite H in A; repeat split.
    - replace (c / x * (c / x)) with ((c * c) / (x * x)) by (field; lra).
      replace (c * c) with (x * x) by lra; field; lra.
    - replace (c / x * x) with c by (field; lra); exact P.
    - field; lra.
    - rewrite <- E; field; lra. }
  destruct (Rlt_dec 0 x) as [H1|H1].
  - destruct (G ltac:(lra)) as (s & S1 & S2 & -> & ->).
    assert (s = 1) by (destruct (sq_1 s S1); subst; lra); subst; lra.
  - destruct (Rlt_dec x 0) as [H2|H2].
    + destruct (G ltac:(lra)) as (s & S1 & S2 & C & S).
      assert (s = -1) by (destruct (sq_1 s S1); subst; lra); subst s.
      destruct (Rle_dec 0 y).
      * rewrite neg_cos, neg_sin, C, S; lra.
      * unfold Rminus; rewrite cos_plus, sin_plus, cos_neg, sin_neg, cos_PI, sin_PI, C, S; lra.
    + assert (x = 0) by lra; subst x.
      assert (K : y = 1 \/ y = -1) by (apply sq_1; lra).
      destruct (Rlt_dec 0 y); [rewrite cos_PI2, sin_PI2; lra|].
      destruct (Rlt_dec y 0); [rewrite cos_neg, sin_neg, cos_PI2, sin_PI2; lra|].
      lra.
Qed.

(** arctan2 recovers the angle modulo 2 pi. *)
Lemma atan2_angle : forall t, exists n, atan2 (sin t) (cos t) = t + 2 * PI * IZR n.
Proof.
  intros t; destruct (atan2_sc (sin t) (cos t)) as [C S]; [apply sin2cos2|].
  apply angle_unique; assumption.
Qed.

Lemma atan2_0_pos : forall x, 0 < x -> atan2 0 x = 0.
Proof.
  intros x H; unfold atan2; destruct (Rlt_dec 0 x); [|lra].
  unfold Rdiv; rewrite Rmult_0_l; apply atan_0.
Qed.

Lemma atan2_0_neg : forall x, x < 0 -> atan2 0 x = PI.
Proof.
  intros x H; unfold atan2; destruct (Rlt_dec 0 x); [lra|].
  destruct (Rlt_dec x 0); [|lra]; destruct (Rle_dec 0 0); [|lra].
  unfold Rdiv; rewrite Rmult_0_l, atan_0; ring.
Qed.

Lemma atan2_0_0 : atan2 0 0 = 0.
Proof. unfold atan2; destruct (Rlt_dec 0 0); [lra|reflexivity]. Qed.
