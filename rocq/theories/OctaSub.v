(** The cyclic subgroups of the octahedral group. *)
From Coq Require Import Reals ZArith Bool List Lia Lra.
From Verif Require Import LibRes LibMat LibTrig FinGroupModel SpecFinGroup ParamModel ParamProofs PlanarModel SpecPlanar PlanarProofs
  SpaceModel SpecSpace SpaceProofs SpaceThms SpaceTol SpaceSub SphereModel SphereProofs OctaModel SpecOcta OctaProofs.
Import ListNotations.
Open Scope R_scope.

(** ** Turns around an axis *)

Definition vecf (a : axis3) : nat -> R := fun i => match i with O => ax a | S O => ay a | _ => az a end.
Definition spun (a : axis3) (t : R) : quat :=
  Quat (ax a * sin (t / 2)) (ay a * sin (t / 2)) (az a * sin (t / 2)) (cos (t / 2)).
Definition unit_axis (a : axis3) : Prop := ax a * ax a + ay a * ay a + az a * az a = 1.

Lemma spun_unit : forall a t, unit_axis a -> unit (spun a t).
Proof.
  intros a t H; unfold unit, spun; cbn [qx qy qz qw]; pose proof (sin2cos2 (t / 2)).
  replace (ax a * sin (t / 2) * (ax a * sin (t / 2)) + ay a * sin (t / 2) * (ay a * sin (t / 2)) +
    az a * sin (t / 2) * (az a * sin (t / 2)) + cos (t / 2) * cos (t / 2))
    with ((ax a * ax a + ay a * ay a + az a * az a) * (sin (t / 2) * sin (t / 2)) + cos (t / 2) * cos (t / 2)) by ring.
  rewrite H; lra.
Qed.

Lemma spun_mat : forall a t, unit_axis a -> meq 3 3 (as_matrix (spun a t)) (spin (vecf a) t).
Proof.
  intros a t H i j Hi Hj; destruct (half_angle t) as [C S]; pose proof (sin2cos2 (t / 2)) as SC.
  assert (H' : ax a * ax a * (sin (t / 2) * sin (t / 2)) + ay a * ay a * (sin (t / 2) * sin (t / 2)) +
     az a * az a * (sin (t / 2) * sin (t / 2)) = sin (t / 2) * sin (t / 2)).
  { rewrite <- !Rmult_plus_distr_r; unfold unit_axis in H; rewrite H; ring. }
  assert (C1 : 1 - cos t = 2 * (sin (t / 2) * sin (t / 2))) by lra.
  unfold spin; rewrite C1; unfold spun; set (s := sin (t / 2)) in *; set (c := cos (t / 2)) in *.
  rewrite C, S; mat_entries i j Hi Hj; cbn [as_matrix mat3 qx qy qz qw delta vecf cross Nat.eqb]; lra.
Qed.

Lemma spun_add : forall a s t, unit_axis a -> qmul (spun a s) (spun a t) = spun a (s + t).
Proof.
  intros a s t H; unfold spun; replace ((s + t) / 2) with (s / 2 + t / 2) by field.
  rewrite sin_plus, cos_plus; apply quat_eq; cbn [qmul qx qy qz qw]; try ring.
  replace (cos (s / 2) * cos (t / 2) - sin (s / 2) * sin (t / 2))
    with (cos (s / 2) * cos (t / 2) - (ax a * ax a + ay a * ay a + az a * az a) * (sin (s / 2) * sin (t / 2)))
    by (unfold unit_axis in H; rewrite H; ring).
  ring.
Qed.

Lemma spin_ext : forall u v t, (forall i, (i < 3)%nat -> u i = v i) -> meq 3 3 (spin u t) (spin v t).
Proof.
  intros u v t H i j Hi Hj; unfold spin; rewrite (H i Hi), (H j Hj).
  assert (E : cross u (delta j) i = cross v (delta j) i)
    by (unfold cross; rewrite !(H 0%nat), !(H 1%nat), !(H 2%nat) by lia; reflexivity).
  rewrite E; reflexivity.
Qed.

Lemma spin_same : forall u s t, cos s = cos t -> sin s = sin t -> meq 3 3 (spin u s) (spin u t).
Proof. intros u s t C S i j _ _; unfold spin; rewrite C, S; reflexivity. Qed.

Lemma same_angle_sc : forall x y, same_angle x y -> cos x = cos y /\ sin x = sin y.
Proof. intros x y (n & ->); split; [apply cos_2PI_Z|apply sin_2PI_Z]. Qed.

Lemma spin_inj : forall a s t, unit_axis a -> meq 3 3 (spin (vecf a) s) (spin (vecf a) t) -> same_angle s t.
Proof.
  intros a s t H E; unfold unit_axis in H.
  pose proof (E 0 0 ltac:(lia) ltac:(lia))%nat as E00; pose proof (E 1 1 ltac:(lia) ltac:(lia))%nat as E11;
  pose proof (E 2 2 ltac:(lia) ltac:(lia))%nat as E22; pose proof (E 2 1 ltac:(lia) ltac:(lia))%nat as E21;
  pose proof (E 1 2 ltac:(lia) ltac:(lia))%nat as E12; pose proof (E 0 2 ltac:(lia) ltac:(lia))%nat as E02;
  pose proof (E 2 0 ltac:(lia) ltac:(lia))%nat as E20; pose proof (E 1 0 ltac:(lia) ltac:(lia))%nat as E10;
  pose proof (E 0 1 ltac:(lia) ltac:(lia))%nat as E01; clear E.
  unfold spin in *; cbn [delta vecf cross Nat.eqb] in *.
  assert (C : cos s = cos t).
  { assert (K : cos s * (3 - (ax a * ax a + ay a * ay a + az a * az a)) =
                cos t * (3 - (ax a * ax a + ay a * ay a + az a * az a))) by lra.
    rewrite H in K; lra. }
  rewrite C in *.
  assert (X : sin s * ax a = sin t * ax a) by lra.
  assert (Y : sin s * ay a = sin t * ay a) by lra.
  assert (Z : sin s * az a = sin t * az a) by lra.
  assert (S : sin s = sin t).
  { transitivity (sin s * (ax a * ax a + ay a * ay a + az a * az a)); [rewrite H; ring|].
    transitivity (sin s * ax a * ax a + sin s * ay a * ay a + sin s * az a * az a); [ring|].
    rewrite X, Y, Z; transitivity (sin t * (ax a * ax a + ay a * ay a + az a * az a)); [ring|rewrite H; ring]. }
  apply angle_unique; assumption.
Qed.

Lemma sqrt3_sq : / sqrt 3 * / sqrt 3 = 1 / 3.
Proof.
  assert (P : 0 < sqrt 3) by (apply sqrt_lt_R0; lra).
  replace (/ sqrt 3 * / sqrt 3) with (/ (sqrt 3 * sqrt 3)) by (field; lra); rewrite sqrt_sqrt by lra; field.
Qed.
Lemma sqrt3_half : sqrt 3 / 2 * / sqrt 3 = 1 / 2.
Proof. assert (P : 0 < sqrt 3) by (apply sqrt_lt_R0; lra); field; lra. Qed.

Definition axis_for (N : Z) : axis3 := if (N =? 3)%Z then diagonal_axis else z_axis.

Lemma axis_for_unit : forall N, unit_axis (axis_for N).
Proof.
  intros N; unfold axis_for, unit_axis; destruct (N =? 3)%Z; cbn [diagonal_axis z_axis ax ay az fst snd]; [|lra].
  unfold Rdiv; rewrite Rmult_1_l; pose proof sqrt3_sq; lra.
Qed.

Lemma axis_for_fold : forall N i, (i < 3)%nat -> vecf (axis_for N) i = fold_axis N i.
Proof.
  intros N i Hi; unfold axis_for, fold_axis; destruct (N =? 3)%Z;
    (destruct i as [|[|[|i]]]; [| | |lia]); cbn [vecf diagonal_axis z_axis ax ay az fst snd delta Nat.eqb];
    unfold Rdiv; rewrite ?Rmult_1_l; reflexivity.
Qed.

(** The orders, and what a turn of each order looks like. *)
Definition order (N : Z) : Prop := N = 2%Z \/ N = 3%Z \/ N = 4%Z.

Lemma sin_cases : forall N r, order N -> (0 <= r < N)%Z ->
  r = 0%Z \/ 1 / 2 <= sin (ang N r / 2).
Proof.
  intros N r HN Hr; pose proof PI_RGT_0.
  assert (S3 : 1 <= sqrt 3) by (apply Rle_trans with (sqrt 1); [rewrite sqrt_1; lra|apply sqrt_le_1_alt; lra]).
  assert (S2 : 1 <= sqrt 2) by (apply Rle_trans with (sqrt 1); [rewrite sqrt_1; lra|apply sqrt_le_1_alt; lra]).
  assert (S4 : 1 / 2 <= 1 / sqrt 2).
  { assert (P : 0 < sqrt 2) by lra; assert (Q : sqrt 2 <= 2) by (apply Rle_trans with (sqrt (2 * 2)); [apply sqrt_le_1_alt; lra|rewrite sqrt_square; lra]).
    apply Rmult_le_reg_r with (sqrt 2); [lra|]; replace (1 / sqrt 2 * sqrt 2) with 1 by (field; lra); lra. }
  destruct (Z.eq_dec r 0) as [|R0]; [left; assumption|right]; unfold ang.
  destruct HN as [->|[->| ->]].
  - assert (r = 1)%Z as -> by lia; replace (2 * PI / 2 * 1 / 2) with (PI / 2) by field; rewrite sin_PI2; lra.
  - assert (r = 1 \/ r = 2)%Z as [->| ->] by lia.
    + replace (2 * PI / 3 * 1 / 2) with (PI / 3) by field; rewrite sin_PI3; lra.
    + replace (2 * PI / 3 * 2 / 2) with (2 * (PI / 3)) by field; rewrite sin_2PI3; lra.
  - assert (r = 1 \/ r = 2 \/ r = 3)%Z as [->|[->| ->]] by lia.
    + replace (2 * PI / 4 * 1 / 2) with (PI / 4) by field; rewrite sin_PI4; lra.
    + replace (2 * PI / 4 * 2 / 2) with (PI / 2) by field; rewrite sin_PI2; lra.
    + replace (2 * PI / 4 * 3 / 2) with (3 * (PI / 4)) by field; rewrite sin_3PI4; lra.
Qed.

(** Cosine and sine of the whole turn. *)
Lemma turn_z_cases : forall N r, N = 2%Z \/ N = 4%Z -> (0 <= r < N)%Z ->
  sign_or_zero (cos (ang N r)) /\ sign_or_zero (sin (ang N r)).
Proof.
  intros N r HN Hr; pose proof PI_RGT_0; unfold ang, sign_or_zero; destruct HN as [->| ->].
  - assert (r = 0 \/ r = 1)%Z as [->| ->] by lia.
    + rewrite Rmult_0_r, cos_0, sin_0; auto.
    + replace (2 * PI / 2 * 1) with PI by field; rewrite cos_PI, sin_PI; auto.
  - assert (r = 0 \/ r = 1 \/ r = 2 \/ r = 3)%Z as [->|[->|[->| ->]]] by lia.
    + rewrite Rmult_0_r, cos_0, sin_0; auto.
    + replace (2 * PI / 4 * 1) with (PI / 2) by field; rewrite cos_PI2, sin_PI2; auto.
    + replace (2 * PI / 4 * 2) with PI by field; rewrite cos_PI, sin_PI; auto.
    + replace (2 * PI / 4 * 3) with (3 * (PI / 2)) by field; rewrite cos_3PI2, sin_3PI2; auto.
Qed.

Lemma turn_d_cases : forall r, (0 <= r < 3)%Z ->
  (cos (ang 3 r) = 1 /\ sin (ang 3 r) * / sqrt 3 = 0) \/
  (cos (ang 3 r) = - (1 / 2) /\ (sin (ang 3 r) * / sqrt 3 = 1 / 2 \/ sin (ang 3 r) * / sqrt 3 = - (1 / 2))).
Proof.
  intros r Hr; pose proof PI_RGT_0; pose proof sqrt3_half; unfold ang.
  assert (r = 0 \/ r = 1 \/ r = 2)%Z as [->|[->| ->]] by lia.
  - left; rewrite Rmult_0_r, cos_0, sin_0; lra.
  - right; replace (2 * PI / 3 * 1) with (2 * (PI / 3)) by field; rewrite cos_2PI3, sin_2PI3; lra.
  - right; replace (2 * PI / 3 * 2) with (- (2 * (PI / 3)) + 2 * PI * 1) by field; rewrite cos_2PI_Z, sin_2PI_Z.
    rewrite cos_neg, sin_neg, cos_2PI3, sin_2PI3; lra.
Qed.

Lemma spin_signs : forall N r i j, order N -> (0 <= r < N)%Z -> (i < 3)%nat -> (j < 3)%nat ->
  sign_or_zero (spin (fold_axis N) (ang N r) i j).
Proof.
  intros N r i j HN Hr Hi Hj; unfold spin, fold_axis, sign_or_zero.
  destruct (Z.eqb_spec N 3) as [->|N3].
  - pose proof sqrt3_sq as Q.
    destruct (turn_d_cases r Hr) as [(-> & S)|(-> & [S|S])];
      mat_entries i j Hi Hj; cbn [delta cross Nat.eqb];
      (left; lra) || (right; left; lra) || (right; right; lra).
  - assert (HN' : N = 2%Z \/ N = 4%Z) by (destruct HN as [->|[->| ->]]; auto; lia).
    destruct (turn_z_cases N r HN' Hr) as [[C|[C|C]] [S|[S|S]]]; rewrite C, S;
      mat_entries i j Hi Hj; cbn [delta cross Nat.eqb];
      (left; lra) || (right; left; lra) || (right; right; lra).
Qed.

Lemma spun_fold : forall N t, meq 3 3 (as_matrix (spun (axis_for N) t)) (spin (fold_axis N) t).
Proof.
  intros N t; eapply meq_trans3; [apply spun_mat, axis_for_unit|]; apply spin_ext; intros i Hi; apply axis_for_fold, Hi.
Qed.

Lemma spun_octahedral : forall N r, order N -> (0 <= r < N)%Z -> octahedral (spun (axis_for N) (ang N r)).
Proof.
  intros N r HN Hr; split; [apply spun_unit, axis_for_unit|]; intros i j Hi Hj.
  rewrite spun_fold by assumption; apply spin_signs; assumption.
Qed.

(** ** Moving by the adjoint *)

Lemma octa_to_adj_ok : forall adj g, octahedral adj -> octahedral g ->
  octa_to_adj adj g = Ret (qmul (qmul adj g) (qconj adj)) /\ octahedral (qmul (qmul adj g) (qconj adj)).
Proof.
  intros adj g Ha Hg; unfold octa_to_adj; rewrite octa_mul_ok, octa_inv_ok by assumption; cbn [bind].
  rewrite octa_mul_ok by (try apply octahedral_mul; try apply octahedral_conj; assumption); split; [reflexivity|].
  repeat apply octahedral_mul; try apply octahedral_conj; assumption.
Qed.
Lemma octa_from_adj_ok : forall adj g, octahedral adj -> octahedral g ->
  octa_from_adj adj g = Ret (qmul (qmul (qconj adj) g) adj) /\ octahedral (qmul (qmul (qconj adj) g) adj).
Proof.
  intros adj g Ha Hg; unfold octa_from_adj; rewrite octa_inv_ok by assumption; cbn [bind].
  rewrite octa_mul_ok by (try apply octahedral_conj; assumption); cbn [bind].
  rewrite octa_mul_ok by (try apply octahedral_mul; try apply octahedral_conj; assumption); split; [reflexivity|].
  repeat apply octahedral_mul; try apply octahedral_conj; assumption.
Qed.

Lemma there_and_back : forall adj g, unit adj ->
  qmul (qmul adj (qmul (qmul (qconj adj) g) adj)) (qconj adj) = g.
Proof.
  intros adj g Ha.
  replace (qmul (qmul adj (qmul (qmul (qconj adj) g) adj)) (qconj adj))
    with (qmul (qmul (qmul adj (qconj adj)) g) (qmul adj (qconj adj))) by (rewrite !qmul_assoc; reflexivity).
  rewrite qmul_conj_r, qmul_id_l, qmul_id_r by exact Ha; reflexivity.
Qed.

(** ** Inclusion *)

Lemma incl_eq : forall adj N r, order N -> octahedral adj -> (0 <= r < N)%Z ->
  cn_to_octa adj N (axis_for N) (VF (VC r)) = Ret (qmul (qmul (qconj adj) (spun (axis_for N) (ang N r))) adj) /\
  octahedral (qmul (qmul (qconj adj) (spun (axis_for N) (ang N r))) adj).
Proof.
  intros adj N r HN Ha Hr; unfold cn_to_octa; rewrite to_radians1_cyc by (destruct HN as [->|[->| ->]]; lia); cbn [bind].
  pose proof (spun_octahedral N r HN Hr) as O; unfold spun in O; rewrite octa_element_ok by exact O; cbn [bind].
  apply octa_from_adj_ok; assumption.
Qed.

Lemma incl_mat : forall adj N r, octahedral adj ->
  meq 3 3 (as_matrix (qmul (qmul (qconj adj) (spun (axis_for N) (ang N r))) adj))
    (conjugate (as_matrix adj) (spin (fold_axis N) (ang N r))).
Proof.
  intros adj N r Ha; eapply meq_trans3; [apply conj_mat|]; apply conj3; [apply meq_refl3|apply spun_fold].
Qed.

(** ** Restriction *)

Lemma np_close_bound : forall x y, Rabs y <= 1 -> np_isclose (/ 10 ^ 8) x y = true -> Rabs (x - y) <= 2 / 100000.
Proof.
  intros x y Hy H; unfold np_isclose in H; apply Rleb_true in H; eapply Rle_trans; [exact H|].
  assert (/ 10 ^ 5 * Rabs y <= / 10 ^ 5 * 1) by (apply Rmult_le_compat_l; [left; apply (tol_pos 5)|exact Hy]).
  replace (/ 10 ^ 8) with (1 / 100000000) by field; replace (/ 10 ^ 5) with (1 / 100000) in * by field; lra.
Qed.

(** Four times the square of an entry of the quaternion of a rotation of the cube,
    and of a difference of two of them, is an integer. *)
Lemma soz_Z : forall x, sign_or_zero x -> exists z, x = IZR z.
Proof. intros x [->|[->| ->]]; [exists (-1)%Z|exists 0%Z|exists 1%Z]; reflexivity. Qed.

Lemma small_integer : forall z, Rabs (IZR z) < 1 -> IZR z = 0.
Proof.
  intros z H; apply Rabs_def2 in H as [H1 H2]; apply lt_IZR in H1; apply (lt_IZR (-1)) in H2.
  assert (z = 0)%Z as -> by lia; reflexivity.
Qed.

Lemma octahedral_Z : forall q, octahedral q -> forall i j, (i < 3)%nat -> (j < 3)%nat -> exists z, as_matrix q i j = IZR z.
Proof. intros q [_ H] i j Hi Hj; apply soz_Z, H; assumption. Qed.

Lemma quarter_sq : forall q, octahedral q ->
  (exists z, 4 * (qx q * qx q) = IZR z) /\ (exists z, 4 * (qy q * qy q) = IZR z) /\ (exists z, 4 * (qz q * qz q) = IZR z) /\
  (exists z, 4 * (qx q * qy q) = IZR z) /\ (exists z, 4 * (qy q * qz q) = IZR z).
Proof.
  intros q O; pose proof (proj1 O) as U; unfold unit in U; pose proof (octahedral_Z q O) as Z.
  destruct (Z 0 0 ltac:(lia) ltac:(lia))%nat as [a A]; destruct (Z 1 1 ltac:(lia) ltac:(lia))%nat as [e E];
  destruct (Z 2 2 ltac:(lia) ltac:(lia))%nat as [k K]; destruct (Z 0 1 ltac:(lia) ltac:(lia))%nat as [b B];
  destruct (Z 1 0 ltac:(lia) ltac:(lia))%nat as [d D]; destruct (Z 1 2 ltac:(lia) ltac:(lia))%nat as [f F];
  destruct (Z 2 1 ltac:(lia) ltac:(lia))%nat as [h H].
  cbn [as_matrix mat3] in *.
  split; [exists (1 + a - e - k)%Z; rewrite !minus_IZR, plus_IZR; lra|].
  split; [exists (1 - a + e - k)%Z; rewrite !minus_IZR, plus_IZR, minus_IZR; lra|].
  split; [exists (1 - a - e + k)%Z; rewrite plus_IZR, !minus_IZR; lra|].
  split; [exists (b + d)%Z; rewrite plus_IZR; lra|exists (f + h)%Z; rewrite plus_IZR; lra].
Qed.

Lemma small_quarter : forall x, (exists z, 4 * (x * x) = IZR z) -> Rabs x <= 1 / 4 -> x = 0.
Proof.
  intros x [z Z] B; assert (S : x * x <= 1 / 16).
  { replace (x * x) with (Rabs x * Rabs x) by (rewrite <- Rabs_mult; apply Rabs_right, Rle_ge, Rle_0_sqr).
    replace (1 / 16) with (1 / 4 * (1 / 4)) by field; pose proof (Rabs_pos x); apply Rmult_le_compat; lra. }
  pose proof (Rle_0_sqr x) as P; unfold Rsqr in P.
  assert (E : IZR z = 0) by (apply small_integer; rewrite <- Z; rewrite Rabs_right by lra; lra).
  assert (Q : x * x = 0) by lra; apply Rmult_integral in Q; tauto.
Qed.

(** The direction of the axis is exact when it is close. *)
Lemma axis_exact : forall N u n, octahedral u -> n = sqrt (qx u * qx u + qy u * qy u + qz u * qz u) ->
  / 10 ^ 8 < n -> allclose3 (qx u / n) (qy u / n) (qz u / n) (axis_for N) = true ->
  u = Quat (ax (axis_for N) * n) (ay (axis_for N) * n) (az (axis_for N) * n) (qw u).
Proof.
  intros N u n O En Hn H; pose proof (tol_pos 8) as T8; assert (P : 0 < n) by lra.
  pose proof (proj1 O) as U; unfold unit in U.
  assert (Sq : n * n = qx u * qx u + qy u * qy u + qz u * qz u).
  { rewrite En; apply sqrt_sqrt; pose proof (Rle_0_sqr (qx u)); pose proof (Rle_0_sqr (qy u)); pose proof (Rle_0_sqr (qz u)).
    unfold Rsqr in *; lra. }
  assert (n1 : n <= 1).
  { rewrite En, <- sqrt_1; apply sqrt_le_1_alt; pose proof (Rle_0_sqr (qw u)); unfold Rsqr in *; lra. }
  destruct (quarter_sq u O) as (Zx & Zy & Zz & [zxy Zxy] & [zyz Zyz]).
  unfold allclose3 in H; apply andb_prop in H as [H Hz]; apply andb_prop in H as [Hx Hy].
  assert (Ab : Rabs (ax (axis_for N)) <= 1 /\ Rabs (ay (axis_for N)) <= 1 /\ Rabs (az (axis_for N)) <= 1).
  { pose proof (axis_for_unit N) as UA; unfold unit_axis in UA.
    assert (G : forall a b c, a * a + b * b + c * c = 1 -> Rabs a <= 1).
    { intros a b c E; destruct (Rle_or_lt (Rabs a) 1) as [L|L]; [exact L|exfalso].
      assert (M : 1 * 1 < Rabs a * Rabs a) by (apply Rmult_gt_0_lt_compat; lra).
      rewrite <- Rabs_mult, Rabs_right in M by (apply Rle_ge, Rle_0_sqr).
      pose proof (Rle_0_sqr b); pose proof (Rle_0_sqr c); unfold Rsqr in *; lra. }
    repeat split; [apply (G _ (ay (axis_for N)) (az (axis_for N)))|apply (G _ (ax (axis_for N)) (az (axis_for N)))|
      apply (G _ (ax (axis_for N)) (ay (axis_for N)))]; lra. }
  destruct Ab as (Ax & Ay & Az).
  apply np_close_bound in Hx; [|exact Ax]; apply np_close_bound in Hy; [|exact Ay]; apply np_close_bound in Hz; [|exact Az].
  assert (K : forall x a, Rabs (x / n - a) <= 2 / 100000 -> Rabs (x - a * n) <= 2 / 100000).
  { intros x a B; replace (x - a * n) with ((x / n - a) * n) by (field; lra); rewrite Rabs_mult, (Rabs_right n) by lra.
    pose proof (Rabs_pos (x / n - a)).
    apply Rle_trans with (2 / 100000 * 1); [apply Rmult_le_compat; lra|lra]. }
  apply K in Hx; apply K in Hy; apply K in Hz; apply abs_le_inv in Hx; apply abs_le_inv in Hy; apply abs_le_inv in Hz.
  unfold axis_for in *; destruct (N =? 3)%Z.
  - cbn [diagonal_axis ax ay az fst snd] in *.
    assert (XY : qx u - qy u = 0).
    { apply small_quarter; [|apply Rabs_le; lra]; destruct Zx as [a A], Zy as [b B].
      exists (a + b - 2 * zxy)%Z; rewrite minus_IZR, plus_IZR, mult_IZR; lra. }
    assert (YZ : qy u - qz u = 0).
    { apply small_quarter; [|apply Rabs_le; lra]; destruct Zy as [a A], Zz as [b B].
      exists (a + b - 2 * zyz)%Z; rewrite minus_IZR, plus_IZR, mult_IZR; lra. }
    assert (Ey : qy u = qx u) by lra; assert (Ez : qz u = qx u) by lra.
    assert (S3 : 0 < sqrt 3) by (apply sqrt_lt_R0; lra); pose proof sqrt3_sq as Q3.
    assert (N3 : 1 / sqrt 3 * n * (1 / sqrt 3 * n) = qx u * qx u).
    { replace (1 / sqrt 3 * n * (1 / sqrt 3 * n)) with (/ sqrt 3 * / sqrt 3 * (n * n)) by (field; lra).
      rewrite Q3, Sq, Ey, Ez; field. }
    assert (Nl : 1 / 2 <= 1 / sqrt 3).
    { apply Rmult_le_reg_r with (sqrt 3); [exact S3|]; replace (1 / sqrt 3 * sqrt 3) with 1 by (field; lra).
      assert (sqrt 3 <= 2) by (apply Rle_trans with (sqrt (2 * 2)); [apply sqrt_le_1_alt; lra|rewrite sqrt_square; lra]); lra. }
    assert (X : qx u = 1 / sqrt 3 * n).
    { assert (D : (qx u - 1 / sqrt 3 * n) * (qx u + 1 / sqrt 3 * n) = 0) by lra.
      apply Rmult_integral in D as [D|D]; [lra|exfalso].
      assert (Big : n <= 4 / 100000).
      { assert (n * (1 / 2) <= n * (1 / sqrt 3)) by (apply Rmult_le_compat_l; lra); lra. }
      assert (Z0 : qx u = 0).
      { apply small_quarter; [exact Zx|]; apply Rabs_le.
        assert (1 / sqrt 3 * n <= 1 * n) by (apply Rmult_le_compat_r; [lra|]; apply abs_le_inv in Ax; lra).
        assert (0 <= 1 / sqrt 3 * n) by (apply Rmult_le_pos; lra); lra. }
      assert (n * n = 0) by (rewrite Sq, Ey, Ez, Z0; ring).
      assert (0 < n * n) by (apply Rmult_lt_0_compat; lra); lra. }
    apply quat_eq; cbn [qx qy qz qw]; lra.
  - cbn [z_axis ax ay az fst snd] in *.
    assert (X : qx u = 0) by (apply small_quarter; [exact Zx|apply Rabs_le; lra]).
    assert (Y : qy u = 0) by (apply small_quarter; [exact Zy|apply Rabs_le; lra]).
    assert (Z : qz u = n).
    { assert (D : (qz u - n) * (qz u + n) = 0) by (rewrite X, Y in Sq; lra).
      apply Rmult_integral in D as [D|D]; [lra|exfalso].
      assert (Z0 : qz u = 0) by (apply small_quarter; [exact Zz|apply Rabs_le; lra]).
      assert (n * n = 0) by (rewrite Sq, X, Y, Z0; ring).
      assert (0 < n * n) by (apply Rmult_lt_0_compat; lra); lra. }
    apply quat_eq; cbn [qx qy qz qw]; lra.
Qed.

Lemma axis_length : forall a s, unit_axis a ->
  ax a * s * (ax a * s) + ay a * s * (ay a * s) + az a * s * (az a * s) = s * s.
Proof.
  intros a s H; unfold unit_axis in H.
  replace (ax a * s * (ax a * s) + ay a * s * (ay a * s) + az a * s * (az a * s))
    with ((ax a * ax a + ay a * ay a + az a * az a) * (s * s)) by ring.
  rewrite H; ring.
Qed.

Lemma order_pos : forall N, order N -> (0 < N)%Z.
Proof. intros N [->|[->| ->]]; lia. Qed.
Lemma order_cyclic : forall N, order N -> cyclic_like (Fin (Cyc N)).
Proof. intros N H; right; exists N; split; [apply order_pos, H|reflexivity]. Qed.

Lemma close_self3 : forall a, allclose3 (ax a) (ay a) (az a) a = true.
Proof. intros a; unfold allclose3; rewrite !np_isclose_refl by apply tol_pos; reflexivity. Qed.

Lemma not_small : forall n, 1 / 2 <= n -> np_isclose (/ 10 ^ 8) n 0 = false.
Proof.
  intros n H; apply not_true_is_false; intros C; apply isclose_zero_bound in C; apply abs_le_inv in C.
  replace (/ 10 ^ 8) with (1 / 100000000) in C by field; lra.
Qed.

(** The restriction inverts the inclusion, sign included ... *)
Lemma restr_back : forall adj N r, order N -> octahedral adj -> (0 <= r < N)%Z ->
  octa_to_cn adj N (axis_for N) (qmul (qmul (qconj adj) (spun (axis_for N) (ang N r))) adj) = Ret (Some (VF (VC r))).
Proof.
  intros adj N r HN Ha Hr; destruct (incl_eq adj N r HN Ha Hr) as [_ O].
  unfold octa_to_cn; destruct (octa_to_adj_ok adj _ Ha O) as [-> _]; cbn [bind]; rewrite there_and_back by apply Ha.
  unfold spun; cbn [qx qy qz qw]; rewrite axis_length by apply axis_for_unit.
  destruct (sin_cases N r HN Hr) as [->|S].
  - unfold ang; replace (2 * PI / IZR N * 0 / 2) with 0 by (unfold Rdiv; ring); rewrite sin_0, Rmult_0_r, sqrt_0.
    rewrite np_isclose_refl by apply tol_pos; reflexivity.
  - rewrite sqrt_square by lra; rewrite not_small by exact S.
    replace (ax (axis_for N) * sin (ang N r / 2) / sin (ang N r / 2)) with (ax (axis_for N)) by (field; lra).
    replace (ay (axis_for N) * sin (ang N r / 2) / sin (ang N r / 2)) with (ay (axis_for N)) by (field; lra).
    replace (az (axis_for N) * sin (ang N r / 2) / sin (ang N r / 2)) with (az (axis_for N)) by (field; lra).
    rewrite close_self3; rewrite (element_radians_exact (Fin (Cyc N)) (VF (VC r))).
    + reflexivity.
    + apply order_cyclic, HN.
    + exact Hr.
    + pose proof (atan2_half (ang N r) 1 ltac:(ring)) as A; rewrite !Rmult_1_l in A; exact A.
Qed.

Lemma axis_z_big : forall N, 1 / 2 <= az (axis_for N) <= 1.
Proof.
  intros N; unfold axis_for; destruct (N =? 3)%Z; cbn [diagonal_axis z_axis az snd]; [|lra].
  assert (S3 : 0 < sqrt 3) by (apply sqrt_lt_R0; lra).
  assert (L : 1 <= sqrt 3) by (apply Rle_trans with (sqrt 1); [rewrite sqrt_1; lra|apply sqrt_le_1_alt; lra]).
  assert (H : sqrt 3 <= 2) by (apply Rle_trans with (sqrt (2 * 2)); [apply sqrt_le_1_alt; lra|rewrite sqrt_square; lra]).
  split; apply Rmult_le_reg_r with (sqrt 3); try exact S3; replace (1 / sqrt 3 * sqrt 3) with 1 by (field; lra); lra.
Qed.

(** ... and misses every other element when its quaternion has the other sign. *)
Lemma restr_opp : forall adj N r, order N -> octahedral adj -> (0 < r < N)%Z ->
  octa_to_cn adj N (axis_for N) (qopp (qmul (qmul (qconj adj) (spun (axis_for N) (ang N r))) adj)) = Ret None.
Proof.
  intros adj N r HN Ha Hr; destruct (incl_eq adj N r HN Ha ltac:(lia)) as [_ O].
  unfold octa_to_cn; destruct (octa_to_adj_ok adj _ Ha (octahedral_opp _ O)) as [-> _]; cbn [bind].
  rewrite qopp_mul_r, qopp_mul_l, there_and_back by apply Ha.
  unfold spun, qopp; cbn [qx qy qz qw].
  destruct (sin_cases N r HN ltac:(lia)) as [->|S]; [lia|].
  set (s := sin (ang N r / 2)) in *.
  replace (- (ax (axis_for N) * s) * - (ax (axis_for N) * s) + - (ay (axis_for N) * s) * - (ay (axis_for N) * s) +
     - (az (axis_for N) * s) * - (az (axis_for N) * s)) with (s * s)
    by (rewrite <- (axis_length (axis_for N) s (axis_for_unit N)); ring).
  rewrite sqrt_square by lra; rewrite not_small by exact S.
  replace (- (az (axis_for N) * s) / s) with (- az (axis_for N)) by (field; lra).
  assert (F : np_isclose (/ 10 ^ 8) (- az (axis_for N)) (az (axis_for N)) = false).
  { apply not_true_is_false; intros C; pose proof (axis_z_big N).
    apply np_close_bound in C; [|apply Rabs_le; lra]; apply abs_le_inv in C; lra. }
  unfold allclose3; rewrite F, andb_false_r; reflexivity.
Qed.

Lemma restr_total : forall adj N g, octahedral adj -> octahedral g ->
  exists o, octa_to_cn adj N (axis_for N) g = Ret o.
Proof.
  intros adj N g Ha Hg; unfold octa_to_cn; destruct (octa_to_adj_ok adj g Ha Hg) as [-> _]; cbn [bind].
  destruct (np_isclose _ _ 0); [eauto|]; destruct (allclose3 _ _ _ _); [|eauto].
  unfold or_none; destruct (element_radians _ _); eauto.
Qed.

(** Two rotations of the cube that are close are the same. *)
Lemma close_same : forall p q, octahedral p -> octahedral q ->
  (forall i j, (i < 3)%nat -> (j < 3)%nat -> Rabs (as_matrix p i j - as_matrix q i j) < 1) -> same_rotation p q.
Proof.
  intros p q Hp Hq H i j Hi Hj; specialize (H i j Hi Hj).
  destruct (octahedral_Z p Hp i j Hi Hj) as [a A]; destruct (octahedral_Z q Hq i j Hi Hj) as [b B].
  rewrite A, B in *; rewrite <- minus_IZR in H; apply small_integer in H; rewrite minus_IZR in H; lra.
Qed.

Lemma spin_close : forall N s t i j, Rabs (s - t) <= / 10 ^ 8 -> (i < 3)%nat -> (j < 3)%nat ->
  Rabs (spin (fold_axis N) s i j - spin (fold_axis N) t i j) < 1.
Proof.
  intros N s t i j H Hi Hj; replace (/ 10 ^ 8) with (1 / 100000000) in H by field.
  pose proof (Rle_trans _ _ _ (cos_lip s t) H) as C; pose proof (Rle_trans _ _ _ (sin_lip s t) H) as S.
  assert (B : forall k, (k < 3)%nat -> Rabs (fold_axis N k) <= 1).
  { intros k Hk; rewrite <- axis_for_fold by exact Hk; unfold axis_for; destruct (N =? 3)%Z eqn:N3.
    - pose proof (axis_z_big N) as Z; unfold axis_for in Z; rewrite N3 in Z; cbn [diagonal_axis az snd] in Z.
      destruct k as [|[|[|k]]]; [| | |lia]; cbn [vecf diagonal_axis ax ay az fst snd]; apply Rabs_le; lra.
    - destruct k as [|[|[|k]]]; [| | |lia]; cbn [vecf z_axis ax ay az fst snd]; apply Rabs_le; lra. }
  assert (D : Rabs (delta j i) <= 1) by (unfold delta; destruct (Nat.eqb i j); apply Rabs_le; lra).
  assert (X : Rabs (cross (fold_axis N) (delta j) i) <= 1).
  { destruct i as [|[|[|i]]]; [| | |lia]; (destruct j as [|[|[|j]]]; [| | |lia]); cbn [cross delta Nat.eqb];
      pose proof (B 0%nat ltac:(lia)) as B0; pose proof (B 1%nat ltac:(lia)) as B1; pose proof (B 2%nat ltac:(lia)) as B2;
      apply abs_le_inv in B0; apply abs_le_inv in B1; apply abs_le_inv in B2; apply Rabs_le; lra. }
  pose proof (B i Hi) as Bi; pose proof (B j Hj) as Bj; unfold spin.
  replace (cos s * delta j i + sin s * cross (fold_axis N) (delta j) i + (1 - cos s) * fold_axis N j * fold_axis N i -
     (cos t * delta j i + sin t * cross (fold_axis N) (delta j) i + (1 - cos t) * fold_axis N j * fold_axis N i))
    with ((cos s - cos t) * delta j i + (sin s - sin t) * cross (fold_axis N) (delta j) i -
          (cos s - cos t) * (fold_axis N j * fold_axis N i)) by ring.
  assert (M : forall x y, Rabs x <= 1 / 100000000 -> Rabs y <= 1 -> Rabs (x * y) <= 1 / 100000000).
  { intros x y Hx Hy; rewrite Rabs_mult; pose proof (Rabs_pos x); pose proof (Rabs_pos y).
    apply Rle_trans with (1 / 100000000 * 1); [apply Rmult_le_compat; lra|lra]. }
  assert (FF : Rabs (fold_axis N j * fold_axis N i) <= 1).
  { rewrite Rabs_mult; pose proof (Rabs_pos (fold_axis N j)); pose proof (Rabs_pos (fold_axis N i)).
    apply Rle_trans with (1 * 1); [apply Rmult_le_compat; lra|lra]. }
  pose proof (abs_le_inv _ _ (M _ _ C D)); pose proof (abs_le_inv _ _ (M _ _ S X)); pose proof (abs_le_inv _ _ (M _ _ C FF)).
  apply Rabs_def1; lra.
Qed.

Lemma restr_sound : forall adj N g v, order N -> octahedral adj -> octahedral g ->
  octa_to_cn adj N (axis_for N) g = Ret (Some v) ->
  exists r, (0 <= r < N)%Z /\ v = VF (VC r) /\
    same_rotation g (qmul (qmul (qconj adj) (spun (axis_for N) (ang N r))) adj).
Proof.
  intros adj N g v HN Ha Hg E; unfold octa_to_cn in E; destruct (octa_to_adj_ok adj g Ha Hg) as [Q O]; rewrite Q in E.
  cbn [bind] in E; set (u := qmul (qmul adj g) (qconj adj)) in *.
  set (n := sqrt (qx u * qx u + qy u * qy u + qz u * qz u)) in *.
  assert (Np : 0 <= qx u * qx u + qy u * qy u + qz u * qz u).
  { pose proof (Rle_0_sqr (qx u)); pose proof (Rle_0_sqr (qy u)); pose proof (Rle_0_sqr (qz u)); unfold Rsqr in *; lra. }
  assert (Nn : n * n = qx u * qx u + qy u * qy u + qz u * qz u) by (apply sqrt_sqrt; exact Np).
  assert (N0 : 0 <= n) by apply sqrt_pos.
  assert (Fn : forall r, same_rotation u (spun (axis_for N) (ang N r)) ->
     same_rotation g (qmul (qmul (qconj adj) (spun (axis_for N) (ang N r))) adj)).
  { intros r S; eapply meq_trans3; [apply (moved_back adj g); [apply Ha|apply Hg]|]; fold u.
    eapply meq_trans3; [|apply meq_sym3, conj_mat]; apply conj3; [apply meq_refl3|exact S]. }
  destruct (np_isclose (/ 10 ^ 8) n 0) eqn:S.
  - assert (v = VF (VC 0)) as -> by congruence.
    exists 0%Z; split; [pose proof (order_pos N HN); lia|]; split; [reflexivity|]; apply Fn.
    apply isclose_zero_bound, small_sq in S; rewrite Nn in S.
    pose proof (Rle_0_sqr (qx u)) as X2; pose proof (Rle_0_sqr (qy u)) as Y2; pose proof (Rle_0_sqr (qz u)) as Z2.
    unfold Rsqr in X2, Y2, Z2.
    assert (Sm : forall x, 0 <= x * x <= 1 / 10000000000000000 -> Rabs x <= 1 / 4).
    { intros x Hx; apply Rsqr_incr_0_var; [|lra]; rewrite <- Rsqr_abs; unfold Rsqr; lra. }
    destruct (quarter_sq u O) as (Zx & Zy & Zz & _).
    apply small_quarter in Zx; [|apply Sm; lra]; apply small_quarter in Zy; [|apply Sm; lra]; apply small_quarter in Zz; [|apply Sm; lra].
    pose proof (proj1 O) as U; unfold unit in U; rewrite Zx, Zy, Zz in U.
    assert (W : qw u * qw u = 1) by lra.
    unfold ang, spun; replace (2 * PI / IZR N * 0 / 2) with 0 by (unfold Rdiv; ring); rewrite sin_0, cos_0.
    intros i j Hi Hj; mat_entries i j Hi Hj; cbn [as_matrix mat3 qx qy qz qw]; rewrite Zx, Zy, Zz; lra.
  - destruct (allclose3 (qx u / n) (qy u / n) (qz u / n) (axis_for N)) eqn:C; [|discriminate E].
    unfold or_none in E; destruct (element_radians (Fin (Cyc N)) (2 * atan2 n (qw u))) as [|w] eqn:R; [discriminate E|].
    assert (w = v) as -> by congruence.
    assert (Big : / 10 ^ 8 < n).
    { apply Rnot_le_lt; intros L.
      assert (T : np_isclose (/ 10 ^ 8) n 0 = true).
      { unfold np_isclose; apply Rleb_true; rewrite Rminus_0_r, Rabs_R0, (Rabs_right n) by lra; lra. }
      congruence. }
    pose proof (axis_exact N u n O eq_refl Big C) as Eu.
    destruct (element_radians_sound _ _ _ (order_cyclic N HN) R) as (M & a & A & B).
    destruct v as [[r|f r]|t|f t]; cbn [pmember member] in M; try contradiction.
    exists r; split; [exact M|]; split; [reflexivity|]; apply Fn.
    assert (Sc : n * n + qw u * qw u = 1) by (pose proof (proj1 O) as U; unfold unit in U; lra).
    destruct (atan2_sc n (qw u) Sc) as [Ac As].
    assert (Es : u = spun (axis_for N) (2 * atan2 n (qw u))).
    { rewrite Eu at 1; unfold spun; replace (2 * atan2 n (qw u) / 2) with (atan2 n (qw u)) by field; rewrite As, Ac; reflexivity. }
    apply close_same; [exact O|apply spun_octahedral; assumption|]; intros i j Hi Hj.
    rewrite (spun_fold N (ang N r) i j Hi Hj); rewrite Es, (spun_fold N _ i j Hi Hj).
    destruct (same_angle_sc _ _ A) as [Ca Sa].
    rewrite <- (spin_same (fold_axis N) a (ang N r) Ca Sa i j Hi Hj); apply spin_close; assumption.
Qed.

(** ** The subgroups *)

Lemma order_documented : forall N, (1 <= N <= 4)%Z -> N = 1%Z \/ order N.
Proof. intros N H; unfold order; lia. Qed.

Lemma cyclic_eq : forall adj N, order N ->
  octa_subgroup (OcPlane false N) adj = Ret (cyclic_sub N (cn_to_octa adj N (axis_for N)) (octa_to_cn adj N (axis_for N))).
Proof. intros adj N [->|[->| ->]]; reflexivity. Qed.

Lemma incl_sub : forall adj N r, order N -> octahedral adj -> (0 <= r < N)%Z ->
  os_incl (cyclic_sub N (cn_to_octa adj N (axis_for N)) (octa_to_cn adj N (axis_for N))) (turn_by r)
  = Ret (qmul (qmul (qconj adj) (spun (axis_for N) (ang N r))) adj).
Proof. intros adj N r HN Ha Hr; cbn [cyclic_sub os_incl turn_by]; apply incl_eq; assumption. Qed.

Lemma cyclic_correct : forall adj N, order N -> octahedral adj ->
  cyclic_subgroup (as_matrix adj) N
    (os_incl (cyclic_sub N (cn_to_octa adj N (axis_for N)) (octa_to_cn adj N (axis_for N))))
    (os_restr (cyclic_sub N (cn_to_octa adj N (axis_for N)) (octa_to_cn adj N (axis_for N)))).
Proof.
  intros adj N HN Ha; pose proof (order_pos N HN) as HP; constructor.
  - intros r Hr; eexists; split; [apply incl_sub; assumption|]; split; [apply incl_eq; assumption|apply incl_mat, Ha].
  - intros r s g h k Hr Hs G H K; rewrite incl_sub in G, H by assumption.
    rewrite incl_sub in K by (try assumption; apply Z.mod_pos_bound; lia).
    apply Ret_inj in G, H, K; subst.
    eapply meq_trans3; [apply incl_mat, Ha|].
    eapply meq_trans3; [|apply mmul3; apply meq_sym3, conj_mat].
    eapply meq_trans3; [|apply conj_mul, mat_orth3, Ha]; apply conj3; [apply meq_refl3|].
    eapply meq_trans3; [|apply mat_mul]; rewrite spun_add by apply axis_for_unit.
    eapply meq_trans3; [|apply meq_sym3, spun_fold].
    assert (A : same_angle (ang N r + ang N s) (ang N ((r + s) mod N))).
    { exists ((r + s) / N)%Z; unfold ang; pose proof (IZR_pos N HP).
      assert (E : IZR (r + s) = IZR N * IZR ((r + s) / N) + IZR ((r + s) mod N))
        by (rewrite <- mult_IZR, <- plus_IZR; f_equal; apply Z.div_mod; lia).
      rewrite plus_IZR in E.
      replace (2 * PI / IZR N * IZR r + 2 * PI / IZR N * IZR s) with (2 * PI / IZR N * (IZR r + IZR s)) by ring.
      rewrite E; field; lra. }
    destruct (same_angle_sc _ _ A); apply spin_same; symmetry; assumption.
  - intros r s g h Hr Hs G H S; rewrite incl_sub in G, H by assumption; apply Ret_inj in G, H; subst.
    apply (ang_inj N); try assumption; apply (spin_inj (axis_for N)); [apply axis_for_unit|].
    assert (F : forall t, meq 3 3 (spin (vecf (axis_for N)) t) (spin (fold_axis N) t))
      by (intros t; apply spin_ext; intros i Hi; apply axis_for_fold, Hi).
    eapply meq_trans3; [apply F|]; eapply meq_trans3; [|apply meq_sym3, F].
    apply (conj_inj (as_matrix adj)); [apply mat_orth3, Ha|].
    eapply meq_trans3; [apply meq_sym3, incl_mat, Ha|]; eapply meq_trans3; [exact S|apply incl_mat, Ha].
  - intros g Hg; cbn [cyclic_sub os_restr]; destruct (restr_total adj N g Ha Hg) as [o ->]; cbn; eauto.
  - intros r g Hr G; rewrite incl_sub in G by assumption; apply Ret_inj in G; subst; cbn [cyclic_sub os_restr].
    rewrite restr_back by assumption; reflexivity.
  - intros g h Hg E; cbn [cyclic_sub os_restr] in E; unfold opt_map in E.
    destruct (octa_to_cn adj N (axis_for N) g) as [|[v|]] eqn:R; cbn [bind] in E; try discriminate E.
    assert (EP v = h) as <- by congruence.
    destruct (restr_sound adj N g v HN Ha Hg R) as (r & Hr & -> & S).
    exists r; eexists; split; [exact Hr|]; split; [reflexivity|]; split; [apply incl_sub; assumption|exact S].
Qed.
