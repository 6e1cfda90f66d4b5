(** How far the restrictions to planar subgroups of SO(3) can be off. *)
From Coq Require Import Reals ZArith Bool List Lia Lra.
From Verif Require Import LibRes LibMat LibTrig FinGroupModel SpecFinGroup SpecGroup ParamModel ParamProofs
  PlanarModel SpecPlanar PlanarProofs SpaceModel SpecSpace SpaceProofs.
Import ListNotations.
Open Scope R_scope.

(** ** arctan2 on any vector *)

Lemma atan2_scale : forall c y x, 0 < c -> atan2 (c * y) (c * x) = atan2 y x.
Proof.
  intros c y x Hc; unfold atan2.
  assert (P : forall a, 0 < c * a <-> 0 < a).
  { intros a; split; intros H; [|apply Rmult_lt_0_compat; assumption].
    apply Rmult_lt_reg_l with c; [assumption|lra]. }
  assert (N : forall a, c * a < 0 <-> a < 0).
  { intros a; pose proof (P (- a)) as Q; replace (c * - a) with (- (c * a)) in Q by ring; lra. }
  assert (D : x <> 0 -> c * y / (c * x) = y / x) by (intros; field; lra).
  pose proof (P x); pose proof (N x); pose proof (P y); pose proof (N y).
  destruct (Rlt_dec 0 (c * x)), (Rlt_dec 0 x); try lra; [rewrite D by lra; reflexivity|].
  destruct (Rlt_dec (c * x) 0), (Rlt_dec x 0); try lra.
  - rewrite D by lra; destruct (Rle_dec 0 (c * y)), (Rle_dec 0 y); lra.
  - destruct (Rlt_dec 0 (c * y)), (Rlt_dec 0 y); try lra; try tauto.
    destruct (Rlt_dec (c * y) 0), (Rlt_dec y 0); try lra; tauto.
Qed.

Lemma atan2_polar : forall y x r, 0 < r -> y * y + x * x = r * r ->
  x = r * cos (atan2 y x) /\ y = r * sin (atan2 y x).
Proof.
  intros y x r Hr H.
  rewrite <- (atan2_scale (/ r) y x) by (apply Rinv_0_lt_compat; exact Hr).
  destruct (atan2_sc (/ r * y) (/ r * x)) as [C S].
  { replace (/ r * y * (/ r * y) + / r * x * (/ r * x)) with ((y * y + x * x) / (r * r)) by (field; lra).
    rewrite H; field; lra. }
  rewrite C, S; split; field; lra.
Qed.

(** ** Sine and cosine are 1-Lipschitz *)

Lemma sin_abs : forall x, Rabs (sin x) <= Rabs x.
Proof.
  assert (P : forall x, 0 < x -> Rabs (sin x) <= x).
  { intros x Hx; destruct (Rlt_dec x 1) as [L|L].
    - pose proof PI2_3_2; rewrite Rabs_right; [left; apply sin_lt_x; exact Hx|].
      apply Rle_ge, sin_ge_0; lra.
    - pose proof (SIN_bound x); apply Rabs_le; lra. }
  intros x; destruct (Rtotal_order x 0) as [H|[->|H]].
  - rewrite (Rabs_left x H), <- (Ropp_involutive x) at 1; rewrite sin_neg, Rabs_Ropp; apply P; lra.
  - rewrite sin_0; lra.
  - rewrite (Rabs_right x) by lra; apply P; exact H.
Qed.

Lemma cos_lip : forall a b, Rabs (cos a - cos b) <= Rabs (a - b).
Proof.
  intros a b; rewrite form2, !Rabs_mult.
  replace (Rabs (-2)) with 2 by (rewrite Rabs_left; lra).
  pose proof (sin_abs ((a - b) / 2)) as H.
  replace (Rabs ((a - b) / 2)) with (Rabs (a - b) / 2) in H
    by (unfold Rdiv; rewrite Rabs_mult, (Rabs_right (/ 2)) by lra; reflexivity).
  assert (K : Rabs (sin ((a + b) / 2)) <= 1) by (pose proof (SIN_bound ((a + b) / 2)); apply Rabs_le; lra).
  pose proof (Rabs_pos (sin ((a - b) / 2))); pose proof (Rabs_pos (sin ((a + b) / 2))).
  apply Rle_trans with (2 * (Rabs (a - b) / 2) * 1); [|lra].
  apply Rmult_le_compat; lra.
Qed.

Lemma sin_lip : forall a b, Rabs (sin a - sin b) <= Rabs (a - b).
Proof.
  intros a b; rewrite <- !cos_shift.
  replace (Rabs (a - b)) with (Rabs (PI / 2 - a - (PI / 2 - b))) by (rewrite Rabs_minus_sym; f_equal; ring).
  apply cos_lip.
Qed.

(** ** Rounding *)

Lemma pyround_half : forall x, Rabs (x - IZR (pyround x)) <= 1 / 2.
Proof.
  intros x; unfold pyround; pose proof (floorZ_spec x).
  destruct (Rlt_dec (x - IZR (floorZ x)) (1 / 2)); [apply Rabs_le; lra|].
  destruct (Rlt_dec (1 / 2) (x - IZR (floorZ x))); [rewrite plus_IZR; apply Rabs_le; lra|].
  destruct (Z.even (floorZ x)); [apply Rabs_le; lra|rewrite plus_IZR; apply Rabs_le; lra].
Qed.

Lemma pyround_nearest : forall x n, Rabs (x - IZR (pyround x)) <= Rabs (x - IZR n).
Proof.
  intros x n; destruct (Rlt_dec (Rabs (x - IZR n)) (1 / 2)) as [L|L].
  - rewrite (pyround_near x n L); lra.
  - pose proof (pyround_half x); lra.
Qed.

Lemma decode_near : forall N t, (0 < N)%Z -> cycle_isclose t 0 (2 * PI / IZR N) = true ->
  exists u, same_angle u (2 * PI / IZR N * IZR (pyround (IZR N * t / (2 * PI)) mod N)) /\
            Rabs (t - u) <= / 10 ^ 8.
Proof.
  intros N t HN C; apply isclose_sound in C as [n C]; [|apply S_range; exact HN].
  rewrite Rminus_0_r in C; pose proof (IZR_pos N HN) as PN; pose proof two_pi_pos as PP.
  set (x := IZR N * t / (2 * PI)).
  exists (2 * PI / IZR N * IZR (pyround x)); split.
  - pose proof (ang_mod N (pyround x) HN) as A; unfold ang in A; destruct A as [k A].
    exists (- k)%Z; rewrite A, opp_IZR; ring.
  - assert (S : 0 < 2 * PI / IZR N) by (apply Rdiv_lt_0_compat; assumption).
    assert (E : forall z, t - 2 * PI / IZR N * IZR z = 2 * PI / IZR N * (x - IZR z)).
    { intros z; unfold x; field; lra. }
    eapply Rle_trans; [|exact C]; rewrite !E, !Rabs_mult.
    apply Rmult_le_compat_l; [apply Rabs_pos|apply pyround_nearest].
Qed.

Lemma element_radians_sound : forall G v t, cyclic_like G -> element_radians G t = Ret v ->
  pmember G v /\ exists u, same_angle u (angle_of G v) /\ Rabs (t - u) <= / 10 ^ 8.
Proof.
  intros G v t [->|(N & HN & ->)] E; unfold element_radians in E.
  - rewrite pelement_so2 in E; apply Ret_inj in E; subst v; cbn; split; [apply m_range|].
    exists t; split; [symmetry; apply sa_m|]; rewrite Rminus_diag_eq, Rabs_R0 by reflexivity; left; apply (tol_pos 8).
  - unfold cn_change_param in E; cbn [bind fst snd] in E.
    destruct (cycle_isclose t 0 (2 * PI / IZR N)) eqn:C; [|discriminate E]; cbn [negb bind] in E.
    destruct (is_element (Cyc N) (VC (pyround (IZR N * t / (2 * PI)) mod N))) eqn:M; [|discriminate E].
    apply Ret_inj in E; subst v; cbn [pmember member angle_of]; split.
    + apply Z.mod_pos_bound; exact HN.
    + apply decode_near; assumption.
Qed.

Lemma element_radians2_sound : forall G f v t, dihedral_like G -> (f = 0 \/ f = 1)%Z ->
  element_radians2 G f t = Ret v ->
  pmember G v /\ flip_of v = f /\ exists u, same_angle u (angle_of G v) /\ Rabs (t - u) <= / 10 ^ 8.
Proof.
  intros G f v t [->|(N & HN & ->)] Hf E; unfold element_radians2 in E.
  - rewrite pelement_o2 in E by exact Hf; apply Ret_inj in E; subst v; cbn; split; [split; [exact Hf|apply m_range]|].
    split; [reflexivity|].
    exists t; split; [symmetry; apply sa_m|]; rewrite Rminus_diag_eq, Rabs_R0 by reflexivity; left; apply (tol_pos 8).
  - unfold dn_change_param in E.
    replace ((f =? 0)%Z || (f =? 1)%Z) with true in E by (destruct Hf as [->| ->]; reflexivity).
    cbn [bind assert_ fst snd] in E.
    destruct (cycle_isclose t 0 (2 * PI / IZR N)) eqn:C; [|discriminate E]; cbn [negb bind] in E.
    destruct (is_element (Dih N) (VD f (pyround (IZR N * t / (2 * PI)) mod N))) eqn:M; [|discriminate E].
    apply Ret_inj in E; subst v; cbn [pmember member angle_of flip_of]; split; [split|split].
    + exact Hf.
    + apply Z.mod_pos_bound; exact HN.
    + reflexivity.
    + apply decode_near; assumption.
Qed.

(** ** Matrices *)

Lemma Rz_same : forall a b, same_angle a b -> Rz a = Rz b.
Proof.
  intros a b [n ->]; unfold Rz; rewrite cos_2PI_Z, sin_2PI_Z; reflexivity.
Qed.

Lemma Rz_near : forall k t u i j, Rabs (t - u) <= / 10 ^ 8 -> (i < 3)%nat -> (j < 3)%nat ->
  Rabs (mmul 3 (Rz t) (halfX k) i j - mmul 3 (Rz u) (halfX k) i j) <= / 10 ^ 8.
Proof.
  intros k t u i j H Hi Hj; pose proof (cos_lip t u) as C; pose proof (sin_lip t u) as S; pose proof (tol_pos 8).
  apply (Rle_trans _ _ _ C) in H as C'; apply (Rle_trans _ _ _ S) in H as S'; clear C S.
  apply abs_le_inv in C', S'.
  unfold halfX; destruct (k =? 0)%Z; mat_entries i j Hi Hj; cbn; apply Rabs_le; lra.
Qed.

(** A unit quaternion with two small entries is nearly planar. *)
Lemma small_prod : forall a b, Rabs a <= / 10 ^ 8 -> Rabs b <= 1 -> Rabs (a * b) <= / 10 ^ 8.
Proof.
  intros a b Ha Hb; rewrite Rabs_mult; pose proof (Rabs_pos a); pose proof (Rabs_pos b).
  apply Rle_trans with (/ 10 ^ 8 * 1); [apply Rmult_le_compat; assumption|lra].
Qed.

Lemma unit_le : forall a b c d, a * a + b * b + c * c + d * d = 1 -> Rabs a <= 1.
Proof.
  intros a b c d H; rewrite <- Rabs_R1; apply Rsqr_le_abs_0; unfold Rsqr.
  pose proof (Rle_0_sqr b) as A2; pose proof (Rle_0_sqr c) as A3; pose proof (Rle_0_sqr d) as A4.
  unfold Rsqr in *; lra.
Qed.

(** [x y] small, [z = r sin], [w = r cos]; used for both kinds of elements. *)
Lemma polar_small : forall x y z w, x * x + y * y + z * z + w * w = 1 ->
  Rabs x <= / 10 ^ 8 -> Rabs y <= / 10 ^ 8 ->
  let t := 2 * atan2 z w in let tol := 1 / 1000000000000000 in
  Rabs (w * w - z * z - cos t) <= tol /\ Rabs (2 * (z * w) - sin t) <= tol /\
  Rabs (z * w) <= 1 /\ Rabs (x * x) <= tol /\ Rabs (y * y) <= tol /\ Rabs (x * y) <= tol.
Proof.
  intros x y z w U Hx Hy t tol.
  pose proof (small_sq x Hx) as Sx; pose proof (small_sq y Hy) as Sy.
  pose proof (Rle_0_sqr x) as Px; pose proof (Rle_0_sqr y) as Py; unfold Rsqr in Px, Py.
  set (r := sqrt (1 - x * x - y * y)).
  assert (R2 : r * r = 1 - x * x - y * y) by (apply sqrt_sqrt; lra).
  assert (R0 : 0 < r) by (apply sqrt_lt_R0; lra).
  destruct (atan2_polar z w r R0 ltac:(lra)) as [W Z].
  destruct (half_angle t) as [C S]; replace (t / 2) with (atan2 z w) in C, S by (unfold t; field).
  pose proof (COS_bound t); pose proof (SIN_bound t).
  assert (E1 : w * w - z * z = r * r * cos t).
  { rewrite C; transitivity ((r * cos (atan2 z w)) * (r * cos (atan2 z w)) - (r * sin (atan2 z w)) * (r * sin (atan2 z w)));
      [rewrite <- W, <- Z; reflexivity|ring]. }
  assert (E2 : 2 * (z * w) = r * r * sin t).
  { rewrite S; transitivity (2 * ((r * sin (atan2 z w)) * (r * cos (atan2 z w))));
      [rewrite <- W, <- Z; reflexivity|ring]. }
  assert (B : forall a, -1 <= a <= 1 -> Rabs (r * r * a - a) <= tol).
  { intros a Ha; replace (r * r * a - a) with ((r * r - 1) * a) by ring; rewrite Rabs_mult.
    assert (Rabs (r * r - 1) <= tol) by (rewrite R2; unfold tol; apply Rabs_le; lra).
    assert (Rabs a <= 1) by (apply Rabs_le; lra); pose proof (Rabs_pos a); pose proof (Rabs_pos (r * r - 1)).
    apply Rle_trans with (tol * 1); [apply Rmult_le_compat; assumption|unfold tol; lra]. }
  repeat split.
  - rewrite E1; apply B; lra.
  - rewrite E2; apply B; lra.
  - rewrite Rabs_mult; pose proof (unit_le z w x y ltac:(lra)); pose proof (unit_le w z x y ltac:(lra)).
    pose proof (Rabs_pos z); pose proof (Rabs_pos w).
    apply Rle_trans with (1 * 1); [apply Rmult_le_compat; assumption|lra].
  - unfold tol; apply Rabs_le; lra.
  - unfold tol; apply Rabs_le; lra.
  - assert (Q : 2 * (x * y) <= x * x + y * y) by (pose proof (Rle_0_sqr (x - y)) as A; unfold Rsqr in A; lra).
    assert (Q' : - (x * x + y * y) <= 2 * (x * y)) by (pose proof (Rle_0_sqr (x + y)) as A; unfold Rsqr in A; lra).
    unfold tol; apply Rabs_le; lra.
Qed.

Lemma turn_near : forall u i j, unit u -> xy_zero u = true -> (i < 3)%nat -> (j < 3)%nat ->
  Rabs (as_matrix u i j - mmul 3 (Rz (2 * atan2 (qz u) (qw u))) (halfX 0) i j) <= 5 / 100000000.
Proof.
  intros u i j U Z Hi Hj; unfold xy_zero in Z; apply andb_prop in Z as [Zx Zy].
  apply isclose_zero_bound in Zx, Zy; unfold unit in U.
  destruct (polar_small _ _ _ _ U Zx Zy) as (B1 & B2 & _ & B3 & B4 & B5); cbv zeta in *.
  pose proof (small_prod _ (qz u) Zx (unit_le (qz u) (qx u) (qy u) (qw u) ltac:(lra))) as XZ.
  pose proof (small_prod _ (qw u) Zx (unit_le (qw u) (qx u) (qy u) (qz u) ltac:(lra))) as XW.
  pose proof (small_prod _ (qz u) Zy (unit_le (qz u) (qx u) (qy u) (qw u) ltac:(lra))) as YZ.
  pose proof (small_prod _ (qw u) Zy (unit_le (qw u) (qx u) (qy u) (qz u) ltac:(lra))) as YW.
  replace (/ 10 ^ 8) with (1 / 100000000) in * by field.
  set (t := 2 * atan2 (qz u) (qw u)) in *.
  apply abs_le_inv in B1, B2, B3, B4, B5, XZ, XW, YZ, YW.
  mat_entries i j Hi Hj; cbn; apply Rabs_le; lra.
Qed.

Lemma flip_near : forall u i j, unit u -> zw_zero u = true -> (i < 3)%nat -> (j < 3)%nat ->
  Rabs (as_matrix u i j - mmul 3 (Rz (2 * atan2 (qy u) (qx u))) (halfX 1) i j) <= 5 / 100000000.
Proof.
  intros u i j U Z Hi Hj; unfold zw_zero in Z; apply andb_prop in Z as [Zz Zw].
  apply isclose_zero_bound in Zz, Zw; unfold unit in U.
  destruct (polar_small (qz u) (qw u) (qy u) (qx u) ltac:(lra) Zz Zw) as (B1 & B2 & _ & B3 & B4 & B5); cbv zeta in *.
  pose proof (small_prod _ (qx u) Zz (unit_le (qx u) (qy u) (qz u) (qw u) ltac:(lra))) as XZ.
  pose proof (small_prod _ (qx u) Zw (unit_le (qx u) (qy u) (qz u) (qw u) ltac:(lra))) as XW.
  pose proof (small_prod _ (qy u) Zz (unit_le (qy u) (qx u) (qz u) (qw u) ltac:(lra))) as YZ.
  pose proof (small_prod _ (qy u) Zw (unit_le (qy u) (qx u) (qz u) (qw u) ltac:(lra))) as YW.
  replace (/ 10 ^ 8) with (1 / 100000000) in * by field.
  set (t := 2 * atan2 (qy u) (qx u)) in *.
  apply abs_le_inv in B1, B2, B3, B4, B5, XZ, XW, YZ, YW.
  mat_entries i j Hi Hj; cbn; apply Rabs_le; lra.
Qed.

Lemma near_sum : forall A B C e d i j, Rabs (A i j - B i j) <= e -> Rabs (B i j - C i j : R) <= d ->
  Rabs ((A : mat) i j - (C : mat) i j) <= e + d.
Proof. intros A B C e d i j H K; apply abs_le_inv in H, K; apply Rabs_le; lra. Qed.

Lemma turn_of_sound : forall G u v, cyclic_like G -> unit u -> turn_of G u = Ret (Some v) ->
  pmember G v /\ forall i j, (i < 3)%nat -> (j < 3)%nat ->
    Rabs (as_matrix u i j - mmul 3 (Rz (angle_of G v)) (halfX (flip_of v)) i j) <= 6 / 100000000.
Proof.
  intros G u v HG U E; unfold turn_of in E; destruct (xy_zero u) eqn:Z; [|discriminate E].
  unfold or_none in E; destruct (element_radians G _) as [|w] eqn:R; [discriminate E|].
  injection E as ->; destruct (element_radians_sound _ _ _ HG R) as (M & a & A & N); split; [exact M|].
  intros i j Hi Hj; rewrite (cyclic_flip G v HG M).
  replace (6 / 100000000) with (5 / 100000000 + / 10 ^ 8) by field.
  apply near_sum with (mmul 3 (Rz (2 * atan2 (qz u) (qw u))) (halfX 0)); [apply turn_near; assumption|].
  rewrite <- (Rz_same _ _ A); apply Rz_near; assumption.
Qed.

Lemma dih_of_sound : forall G u v, dihedral_like G -> unit u -> dih_of G u = Ret (Some v) ->
  pmember G v /\ forall i j, (i < 3)%nat -> (j < 3)%nat ->
    Rabs (as_matrix u i j - mmul 3 (Rz (angle_of G v)) (halfX (flip_of v)) i j) <= 6 / 100000000.
Proof.
  intros G u v HG U E; unfold dih_of, or_none in E.
  replace (6 / 100000000) with (5 / 100000000 + / 10 ^ 8) by field.
  destruct (xy_zero u) eqn:Z; [|destruct (zw_zero u) eqn:Z'; [|discriminate E]].
  - destruct (element_radians2 G 0 _) as [|w] eqn:R; [discriminate E|].
    injection E as ->; destruct (element_radians2_sound _ _ _ _ HG (or_introl eq_refl) R) as (M & F & a & A & N).
    split; [exact M|]; intros i j Hi Hj; rewrite F.
    apply near_sum with (mmul 3 (Rz (2 * atan2 (qz u) (qw u))) (halfX 0)); [apply turn_near; assumption|].
    rewrite <- (Rz_same _ _ A); apply Rz_near; assumption.
  - destruct (element_radians2 G 1 _) as [|w] eqn:R; [discriminate E|].
    injection E as ->; destruct (element_radians2_sound _ _ _ _ HG (or_intror eq_refl) R) as (M & F & a & A & N).
    split; [exact M|]; intros i j Hi Hj; rewrite F.
    apply near_sum with (mmul 3 (Rz (2 * atan2 (qy u) (qx u))) (halfX 1)); [apply flip_near; assumption|].
    rewrite <- (Rz_same _ _ A); apply Rz_near; assumption.
Qed.
