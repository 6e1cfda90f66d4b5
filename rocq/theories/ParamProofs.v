(** Proofs about [ParamModel]. *)
From Coq Require Import Reals ZArith Bool List Lia Lra.
From Verif Require Import LibRes LibMat LibTrig FinGroupModel SpecFinGroup ParamModel.
Import ListNotations.
Open Scope R_scope.

Lemma Rleb_true : forall x y, Rleb x y = true <-> x <= y.
Proof. intros x y; unfold Rleb; destruct (Rle_dec x y); split; intros; auto; discriminate. Qed.

Lemma Rleb_false : forall x y, Rleb x y = false <-> y < x.
Proof. intros x y; unfold Rleb; destruct (Rle_dec x y); split; intros; try discriminate; auto; lra. Qed.

Lemma tol_pos : forall n, 0 < / 10 ^ n.
Proof. intros n; apply Rinv_0_lt_compat, pow_lt; lra. Qed.

Lemma tol9 : / 10 ^ 9 < 1 / 4.
Proof. apply Rmult_lt_reg_r with (10 ^ 9); [apply pow_lt; lra|]; rewrite Rinv_l by (apply pow_nonzero; lra); lra. Qed.

Lemma tol11 : / 10 ^ 11 < 1 / 1000000.
Proof. apply Rmult_lt_reg_r with (10 ^ 11); [apply pow_lt; lra|]; rewrite Rinv_l by (apply pow_nonzero; lra); lra. Qed.

Lemma math_isclose_refl : forall a r t, 0 < t -> math_isclose a a r t = true.
Proof.
  intros a r t Ht; unfold math_isclose; apply Rleb_true.
  rewrite Rminus_eq_0, Rabs_R0; apply Rle_trans with t; [lra|apply Rmax_r].
Qed.

Lemma cycle_isclose_exact : forall a b S n, 0 < S -> a = b + S * IZR n ->
  cycle_isclose a b S = true.
Proof.
  intros a b S n HS E; unfold cycle_isclose.
  replace (a - b) with (S * IZR n) by lra; rewrite rmod_mult by exact HS.
  rewrite math_isclose_refl by apply tol_pos; cbn.
  replace (Rleb 0 0) with true by (symmetry; apply Rleb_true; lra); reflexivity.
Qed.

Lemma np_isclose_refl : forall t a, 0 < t -> np_isclose t a a = true.
Proof.
  intros t a Ht; unfold np_isclose; apply Rleb_true; rewrite Rminus_eq_0, Rabs_R0.
  apply Rplus_le_le_0_compat; [lra|apply Rmult_le_pos; [left; apply tol_pos|apply Rabs_pos]].
Qed.

Lemma rot2_orth : forall t, meq 2 2 (mmul 2 (rot2 t) (mtr (rot2 t))) mid /\
  meq 2 2 (mmul 2 (mtr (rot2 t)) (rot2 t)) mid.
Proof.
  intros t; pose proof (sin2cos2 t).
  split; intros [|[|i]] [|[|j]] Hi Hj; try lia; unfold mmul, mtr, rot2, mat2, mid; cbn; lra.
Qed.

Lemma rot2_checks : forall k t, np_isclose (/ 10 ^ 8) (det2 (rot2 t)) 1 = true /\
  allclose_eye2 (/ 10 ^ k) (mmul 2 (rot2 t) (mtr (rot2 t))) = true /\
  allclose_eye2 (/ 10 ^ k) (mmul 2 (mtr (rot2 t)) (rot2 t)) = true.
Proof.
  intros k t; pose proof (sin2cos2 t) as Q; destruct (rot2_orth t) as [O1 O2].
  split; [|split].
  - replace (det2 (rot2 t)) with 1 by (unfold det2, rot2, mat2; lra).
    apply np_isclose_refl, tol_pos.
  - unfold allclose_eye2; rewrite !O1 by lia; unfold mid; cbn [Nat.eqb].
    rewrite !np_isclose_refl by apply tol_pos; reflexivity.
  - unfold allclose_eye2; rewrite !O2 by lia; unfold mid; cbn [Nat.eqb].
    rewrite !np_isclose_refl by apply tol_pos; reflexivity.
Qed.

Lemma two_pi_pos : 0 < 2 * PI.
Proof. pose proof PI_RGT_0; lra. Qed.

Lemma IZR_pos : forall N, (0 < N)%Z -> 0 < IZR N.
Proof. intros N H; apply (IZR_lt 0); exact H. Qed.

(** Any float that is a multiple of 2 pi / N decodes to that multiple. *)
Lemma radians_decode : forall N t z, (0 < N)%Z -> t = 2 * PI / IZR N * IZR z ->
  cycle_isclose t 0 (2 * PI / IZR N) = true /\ (pyround (IZR N * t / (2 * PI)) mod N)%Z = (z mod N)%Z.
Proof.
  intros N t z HN E; pose proof (IZR_pos N HN) as HN'; pose proof two_pi_pos as P; pose proof PI_RGT_0.
  assert (HS : 0 < 2 * PI / IZR N) by (apply Rdiv_lt_0_compat; lra).
  split; [apply cycle_isclose_exact with z; [exact HS|lra]|].
  replace (IZR N * t / (2 * PI)) with (IZR z) by (rewrite E; field; lra).
  rewrite pyround_IZR; reflexivity.
Qed.

Lemma cn_from_radians : forall N t z p, (0 < N)%Z -> t = 2 * PI / IZR N * IZR z ->
  cn_change_param N (Pfloat t) PRad p = cn_change_param N (Pint (z mod N)) PInt p.
Proof.
  intros N t z p HN E; destruct (radians_decode N t z HN E) as [C D].
  unfold cn_change_param; cbn [bind fst snd]; rewrite C, D; reflexivity.
Qed.

Lemma dn_from_radians : forall N f t z p, (0 < N)%Z -> t = 2 * PI / IZR N * IZR z ->
  dn_change_param N (f, Pfloat t) PRad p = dn_change_param N (f, Pint (z mod N)) PInt p.
Proof.
  intros N f t z p HN E; destruct (radians_decode N t z HN E) as [C D].
  unfold dn_change_param; destruct ((f =? 0)%Z || (f =? 1)%Z); [|reflexivity].
  cbn [bind assert_ fst snd]; rewrite C, D; reflexivity.
Qed.

Lemma angle_form : forall N z, (0 < N)%Z -> IZR z * (2 * PI) / IZR N = 2 * PI / IZR N * IZR z.
Proof. intros N z HN; pose proof (IZR_pos N HN); field; lra. Qed.

Lemma cn_radians_roundtrip : forall N r, (0 < N)%Z -> (0 <= r < N)%Z ->
  exists w, cn_change_param N (Pint r) PInt PRad = Ret w /\
            cn_change_param N w PRad PInt = Ret (Pint r).
Proof.
  intros N r HN Hr; eexists; split; [reflexivity|].
  rewrite (cn_from_radians N _ r PInt HN (angle_form N r HN)).
  cbn; rewrite Z.mod_small by lia; reflexivity.
Qed.

Lemma dn_radians_roundtrip : forall N f r, (0 < N)%Z -> (f = 0 \/ f = 1)%Z -> (0 <= r < N)%Z ->
  exists w, dn_change_param N (f, Pint r) PInt PRad = Ret w /\
            dn_change_param N w PRad PInt = Ret (f, Pint r).
Proof.
  intros N f r HN Hf Hr; exists (f, Pfloat (IZR r * (2 * PI) / IZR N)); split.
  - destruct Hf; subst; reflexivity.
  - rewrite (dn_from_radians N f _ r PInt HN (angle_form N r HN)), Z.mod_small by lia.
    destruct Hf; subst; reflexivity.
Qed.

(** Decoding a rotation matrix in C_N: the sine is lost. *)
Lemma cn_from_mat : forall N t p,
  cn_change_param N (Parr 2 2 (rot2 t)) PMat p = cn_change_param N (Pfloat (atan2 0 (cos t))) PRad p.
Proof.
  intros N t p; destruct (rot2_checks 8 t) as (C1 & C2 & _).
  unfold cn_change_param; cbn [bind]; rewrite C1, C2; cbn [bind assert_ fst snd].
  replace ((rot2 t 1%nat 0%nat - rot2 t 1%nat 0%nat) / 2) with 0 by field.
  replace ((rot2 t 0%nat 0%nat + rot2 t 1%nat 1%nat) / 2) with (cos t) by (unfold rot2, mat2; field).
  reflexivity.
Qed.

Lemma dn_from_mat : forall N f t p,
  dn_change_param N (f, Parr 2 2 (rot2 t)) PMat p = dn_change_param N (f, Pfloat (atan2 0 (cos t))) PRad p.
Proof.
  intros N f t p; destruct (rot2_checks 8 t) as (C1 & C2 & _).
  unfold dn_change_param; destruct ((f =? 0)%Z || (f =? 1)%Z); [|reflexivity].
  cbn [bind assert_]; rewrite C1, C2; cbn [bind assert_ fst snd].
  replace ((rot2 t 1%nat 0%nat - rot2 t 1%nat 0%nat) / 2) with 0 by field.
  replace ((rot2 t 0%nat 0%nat + rot2 t 1%nat 1%nat) / 2) with (cos t) by (unfold rot2, mat2; field).
  reflexivity.
Qed.

Lemma atan2_0_nonneg : forall x, 0 <= x -> atan2 0 x = 0.
Proof.
  intros x [H|H]; [apply atan2_0_pos; exact H|subst; apply atan2_0_0].
Qed.

(** A rotation by at most a quarter turn has a non-negative cosine. *)
Lemma cos_quarter : forall N r, (0 < N)%Z -> (0 <= r)%Z -> (4 * r <= N)%Z ->
  0 <= cos (IZR r * (2 * PI) / IZR N).
Proof.
  intros N r HN Hr H; pose proof (IZR_pos N HN); pose proof PI_RGT_0.
  assert (IZR 4 * IZR r <= IZR N) by (rewrite <- mult_IZR; apply IZR_le; exact H).
  assert (0 <= IZR r) by (apply (IZR_le 0); exact Hr).
  apply cos_ge_0.
  - apply Rle_trans with 0; [lra|].
    apply Rmult_le_pos; [apply Rmult_le_pos; lra|left; apply Rinv_0_lt_compat; lra].
  - apply Rmult_le_reg_r with (IZR N); [lra|].
    unfold Rdiv; rewrite (Rmult_assoc _ (/ IZR N)), Rinv_l by lra.
    assert (PI * (4 * IZR r) <= PI * IZR N) by (apply Rmult_le_compat_l; lra); lra.
Qed.

Lemma cn_mat_collapse : forall N r, (0 < N)%Z -> (0 <= r)%Z -> (4 * r <= N)%Z ->
  exists w, cn_change_param N (Pint r) PInt PMat = Ret w /\
            cn_change_param N w PMat PInt = Ret (Pint 0).
Proof.
  intros N r HN Hr H; eexists; split; [reflexivity|].
  rewrite cn_from_mat, atan2_0_nonneg by (apply cos_quarter; assumption).
  rewrite (cn_from_radians N 0 0 PInt HN) by ring; reflexivity.
Qed.

Lemma dn_mat_collapse : forall N f r, (0 < N)%Z -> (f = 0 \/ f = 1)%Z -> (0 <= r)%Z -> (4 * r <= N)%Z ->
  exists w, dn_change_param N (f, Pint r) PInt PMat = Ret w /\
            dn_change_param N w PMat PInt = Ret (f, Pint 0).
Proof.
  intros N f r HN Hf Hr H; exists (f, Parr 2 2 (rot2 (IZR r * (2 * PI) / IZR N))); split.
  - destruct Hf; subst; reflexivity.
  - rewrite dn_from_mat, atan2_0_nonneg by (apply cos_quarter; assumption).
    rewrite (dn_from_radians N f 0 0 PInt HN) by ring.
    destruct Hf; subst; reflexivity.
Qed.

(** C_3: a third of a turn is not decoded at all. *)
Lemma isclose_pi_3 : cycle_isclose PI 0 (2 * PI / 3) = false.
Proof.
  pose proof PI_RGT_0 as P.
  assert (P3 : 3 < PI) by (pose proof PI2_3_2; lra).
  unfold cycle_isclose.
  rewrite (rmod_unique (PI - 0) (PI / 3) (2 * PI / 3) 1) by lra.
  unfold math_isclose; pose proof tol9; pose proof tol11; pose proof (tol_pos 9).
  assert (A : forall m, 0 <= m <= 2 * PI / 3 -> Rmax (/ 10 ^ 9 * m) (/ 10 ^ 11) < PI / 3).
  { intros m Hm; apply Rmax_lub_lt; [|lra].
    apply Rle_lt_trans with (/ 10 ^ 9 * (2 * PI / 3)); [apply Rmult_le_compat_l; lra|].
    apply Rle_lt_trans with (1 / 4 * (2 * PI / 3)); [apply Rmult_le_compat_r; lra|lra]. }
  apply orb_false_intro; apply andb_false_intro1, Rleb_false.
  - eapply Rlt_le_trans; [apply A|].
    + rewrite Rabs_R0, (Rabs_right (PI / 3)) by lra; rewrite Rmax_left by lra; lra.
    + rewrite Rabs_right; lra.
  - eapply Rlt_le_trans; [apply A|].
    + rewrite (Rabs_right (PI / 3)), (Rabs_right (2 * PI / 3)) by lra; rewrite Rmax_right by lra; lra.
    + rewrite Rabs_left by lra; lra.
Qed.

Lemma cos_third : cos (IZR 1 * (2 * PI) / 3) < 0.
Proof.
  pose proof PI_RGT_0; apply cos_lt_0; lra.
Qed.

Lemma cn_mat_third : exists w, cn_change_param 3 (Pint 1) PInt PMat = Ret w /\
  cn_change_param 3 w PMat PInt = Raise.
Proof.
  eexists; split; [reflexivity|].
  rewrite cn_from_mat, atan2_0_neg by apply cos_third.
  unfold cn_change_param; cbn [bind fst snd]; rewrite isclose_pi_3; reflexivity.
Qed.

Lemma dn_mat_third : exists w, dn_change_param 3 (0%Z, Pint 1) PInt PMat = Ret w /\
  dn_change_param 3 w PMat PInt = Raise.
Proof.
  eexists; split; [reflexivity|].
  rewrite dn_from_mat, atan2_0_neg by apply cos_third.
  unfold dn_change_param; cbn [bind fst snd assert_ orb Z.eqb]; rewrite isclose_pi_3; reflexivity.
Qed.

(** C_1 and C_2 survive. *)
Lemma mat_small : forall N r, (N = 1 \/ N = 2)%Z -> (0 <= r < N)%Z ->
  exists z, atan2 0 (cos (IZR r * (2 * PI) / IZR N)) = 2 * PI / IZR N * IZR z /\ (z mod N = r)%Z.
Proof.
  intros N r HN Hr; pose proof PI_RGT_0 as P.
  assert (H : (r = 0 \/ (r = 1 /\ N = 2))%Z) by lia; destruct H as [->|[-> ->]].
  - exists 0%Z; replace (IZR 0 * (2 * PI) / IZR N) with 0 by (unfold Rdiv; ring).
    rewrite cos_0, atan2_0_pos by lra; split; [ring|apply Zmod_0_l].
  - exists 1%Z; replace (IZR 1 * (2 * PI) / 2) with PI by field.
    rewrite cos_PI, atan2_0_neg by lra; split; [field|reflexivity].
Qed.

Definition survives_cn (N : Z) (p : param) : Prop := forall r, (0 <= r < N)%Z ->
  exists w, cn_change_param N (Pint r) PInt p = Ret w /\ cn_change_param N w p PInt = Ret (Pint r).
Definition survives_dn (N : Z) (p : param) : Prop := forall f r, (f = 0 \/ f = 1)%Z -> (0 <= r < N)%Z ->
  exists w, dn_change_param N (f, Pint r) PInt p = Ret w /\ dn_change_param N w p PInt = Ret (f, Pint r).

Lemma cn_int_roundtrip : forall N, survives_cn N PInt.
Proof. intros N r Hr; eexists; split; reflexivity. Qed.

Lemma dn_int_roundtrip : forall N, survives_dn N PInt.
Proof. intros N f r [->| ->] Hr; eexists; split; reflexivity. Qed.

Lemma cn_mat_iff : forall N, (0 < N)%Z -> (survives_cn N PMat <-> (N <= 2)%Z).
Proof.
  intros N HN; split.
  - intros H; destruct (Z_le_gt_dec N 2) as [|G]; [assumption|exfalso].
    destruct (H 1%Z ltac:(lia)) as (w & W1 & W2).
    destruct (Z.eq_dec N 3) as [->|N3].
    + destruct cn_mat_third as (w' & W1' & W2'); congruence.
    + destruct (cn_mat_collapse N 1) as (w' & W1' & W2'); [lia..|]; congruence.
  - intros H r Hr; eexists; split; [reflexivity|]; rewrite cn_from_mat.
    destruct (mat_small N r ltac:(lia) Hr) as (z & E & M).
    rewrite (cn_from_radians N _ z PInt HN E), M; reflexivity.
Qed.

Lemma dn_mat_iff : forall N, (0 < N)%Z -> (survives_dn N PMat <-> (N <= 2)%Z).
Proof.
  intros N HN; split.
  - intros H; destruct (Z_le_gt_dec N 2) as [|G]; [assumption|exfalso].
    destruct (H 0%Z 1%Z ltac:(lia) ltac:(lia)) as (w & W1 & W2).
    destruct (Z.eq_dec N 3) as [->|N3].
    + destruct dn_mat_third as (w' & W1' & W2'); congruence.
    + destruct (dn_mat_collapse N 0 1) as (w' & W1' & W2'); [lia..|]; congruence.
  - intros H f r Hf Hr; exists (f, Parr 2 2 (rot2 (IZR r * (2 * PI) / IZR N))); split.
    { destruct Hf; subst; reflexivity. }
    rewrite dn_from_mat.
    destruct (mat_small N r ltac:(lia) Hr) as (z & E & M).
    rewrite (dn_from_radians N f _ z PInt HN E), M; destruct Hf; subst; reflexivity.
Qed.

(** SO(2) and O(2): the matrix is decoded to the angle it encodes. *)
Lemma rmod_atan2 : forall t, rmod (atan2 (sin t) (cos t)) (2 * PI) = rmod t (2 * PI).
Proof.
  intros t; destruct (atan2_angle t) as [n E]; apply rmod_eq with n; [apply two_pi_pos|exact E].
Qed.

Lemma so2_from_mat : forall t p,
  so2_change_param (Parr 2 2 (rot2 t)) PMat p = so2_change_param (Pfloat t) PRad p.
Proof.
  intros t p; destruct (rot2_checks 8 t) as (C1 & C2 & _).
  unfold so2_change_param; cbn [bind]; rewrite C1, C2; cbn [bind assert_].
  replace ((rot2 t 0%nat 0%nat + rot2 t 1%nat 1%nat) / 2) with (cos t) by (unfold rot2, mat2; field).
  replace ((rot2 t 1%nat 0%nat - rot2 t 0%nat 1%nat) / 2) with (sin t) by (unfold rot2, mat2; field).
  rewrite rmod_atan2; reflexivity.
Qed.

Lemma o2_from_mat : forall f t p,
  o2_change_param (f, Parr 2 2 (rot2 t)) PMat p = o2_change_param (f, Pfloat t) PRad p.
Proof.
  intros f t p; destruct (rot2_checks 6 t) as (C1 & C2 & C3).
  unfold o2_change_param; cbn [bind]; rewrite C1, C2, C3; cbn [bind assert_].
  replace ((rot2 t 0%nat 0%nat + rot2 t 1%nat 1%nat) / 2) with (cos t) by (unfold rot2, mat2; field).
  replace ((rot2 t 1%nat 0%nat - rot2 t 0%nat 1%nat) / 2) with (sin t) by (unfold rot2, mat2; field).
  rewrite rmod_atan2; reflexivity.
Qed.

Lemma so2_roundtrip : forall p t, p = PRad \/ p = PMat -> 0 <= t < 2 * PI ->
  exists w, so2_change_param (Pfloat t) PRad p = Ret w /\
            so2_change_param w p PRad = Ret (Pfloat t).
Proof.
  intros p t Hp Ht; destruct Hp as [->| ->]; eexists; (split; [reflexivity|]).
  - cbn; rewrite !rmod_small by (try apply rmod_range; try apply two_pi_pos; exact Ht); reflexivity.
  - rewrite so2_from_mat; cbn; rewrite !rmod_small by (try apply rmod_range; try apply two_pi_pos; exact Ht); reflexivity.
Qed.

Lemma o2_roundtrip : forall p f t, p = PRad \/ p = PMat -> 0 <= t < 2 * PI ->
  exists w, o2_change_param (f, Pfloat t) PRad p = Ret w /\
            o2_change_param w p PRad = Ret (f, Pfloat t).
Proof.
  intros p f t Hp Ht; destruct Hp as [->| ->]; eexists; (split; [reflexivity|]).
  - cbn; rewrite !rmod_small by (try apply rmod_range; try apply two_pi_pos; exact Ht); reflexivity.
  - rewrite o2_from_mat; cbn; rewrite !rmod_small by (try apply rmod_range; try apply two_pi_pos; exact Ht); reflexivity.
Qed.

(** Operations carried out in a given parametrisation. *)
Lemma cn_back : forall N p r, (0 < N)%Z -> p <> PMat -> (0 <= r < N)%Z ->
  forall w, cn_change_param N (Pint r) PInt p = Ret w -> cn_change_param N w p PInt = Ret (Pint r).
Proof.
  intros N p r HN Hp Hr w W; destruct p; [|clear Hp|congruence].
  - apply Ret_inj in W; subst; reflexivity.
  - destruct (cn_radians_roundtrip N r HN Hr) as (w' & W1 & W2); congruence.
Qed.

Lemma dn_back : forall N p f r, (0 < N)%Z -> p <> PMat -> (f = 0 \/ f = 1)%Z -> (0 <= r < N)%Z ->
  forall w, dn_change_param N (f, Pint r) PInt p = Ret w -> dn_change_param N w p PInt = Ret (f, Pint r).
Proof.
  intros N p f r HN Hp Hf Hr w W; destruct p; [|clear Hp|congruence].
  - destruct Hf; subst; apply Ret_inj in W; subst; reflexivity.
  - destruct (dn_radians_roundtrip N f r HN Hf Hr) as (w' & W1 & W2); congruence.
Qed.

Lemma cn_combine_param : forall N p a b x y, (0 < N)%Z -> p <> PMat ->
  (0 <= a < N)%Z -> (0 <= b < N)%Z ->
  cn_change_param N (Pint a) PInt p = Ret x -> cn_change_param N (Pint b) PInt p = Ret y ->
  cn_combine N x y p = cn_change_param N (Pint ((a + b) mod N)) PInt p.
Proof.
  intros N p a b x y HN Hp Ha Hb X Y; unfold cn_combine.
  rewrite (cn_back N p a HN Hp Ha x X), (cn_back N p b HN Hp Hb y Y); reflexivity.
Qed.

Lemma dn_combine_param : forall N p f a g b x y, (0 < N)%Z -> p <> PMat ->
  (f = 0 \/ f = 1)%Z -> (g = 0 \/ g = 1)%Z -> (0 <= a < N)%Z -> (0 <= b < N)%Z ->
  dn_change_param N (f, Pint a) PInt p = Ret x -> dn_change_param N (g, Pint b) PInt p = Ret y ->
  dn_combine N x y p =
  dn_change_param N (((f + g) mod 2)%Z, Pint ((a + (if (f =? 0)%Z then b else - b)) mod N)%Z) PInt p.
Proof.
  intros N p f a g b x y HN Hp Hf Hg Ha Hb X Y; unfold dn_combine.
  rewrite (dn_back N p f a HN Hp Hf Ha x X), (dn_back N p g b HN Hp Hg Hb y Y).
  cbn [bind]; unfold pysign.
  replace ((if (f =? 0)%Z then 1 else -1) * b)%Z with (if (f =? 0)%Z then b else - b)%Z; [reflexivity|].
  destruct (f =? 0)%Z; lia.
Qed.

Lemma dn_inverse_param : forall N p f a x, (0 < N)%Z -> p <> PMat ->
  (f = 0 \/ f = 1)%Z -> (0 <= a < N)%Z ->
  dn_change_param N (f, Pint a) PInt p = Ret x ->
  dn_inverse N x p = dn_change_param N (f, Pint ((if (f =? 0)%Z then - a else a) mod N)%Z) PInt p.
Proof.
  intros N p f a x HN Hp Hf Ha X; unfold dn_inverse.
  rewrite (dn_back N p f a HN Hp Hf Ha x X); cbn [bind]; unfold pysign.
  replace (- a * (if (f =? 0)%Z then 1 else -1))%Z with (if (f =? 0)%Z then - a else a)%Z; [reflexivity|].
  destruct (f =? 0)%Z; lia.
Qed.

Lemma cn_inverse_int : forall N a, cn_inverse N (Pint a) PInt = Ret (Pint ((- a) mod N)).
Proof. reflexivity. Qed.

Lemma cn_inverse_radians_raises : forall N a x, (0 < N)%Z ->
  cn_change_param N (Pint a) PInt PRad = Ret x -> cn_inverse N x PRad = Raise.
Proof.
  intros N a x HN X; apply Ret_inj in X; subst x; unfold cn_inverse.
  destruct (cn_change_param N (Pfloat (IZR a * (2 * PI) / IZR N)) PRad PInt); reflexivity.
Qed.
