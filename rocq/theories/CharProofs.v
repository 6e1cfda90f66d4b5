(** Characters of SO(3): angles, the tolerance, products, orthogonality. *)
From Coq Require Import Reals ZArith Bool List Lia Lra.
From Verif Require Import LibRes LibMat LibTrig FinGroupModel ParamModel ParamProofs PlanarModel SpaceModel SpecSpace SpaceProofs
  ExhaustProofs CharModel SpecChar.
Import ListNotations.
Open Scope R_scope.

Lemma wave_S : forall l t, wave (S l) t = wave l t + 2 * cos (INR (S l) * t).
Proof. intros; unfold wave; cbn [sumn]; ring. Qed.

Lemma wave_sine : forall l t, sin (t / 2) * wave l t = sin (INR l * t + t / 2).
Proof. intros; apply dirichlet. Qed.

Lemma cos_next : forall n t, cos (INR (S (S n)) * t) = 2 * cos t * cos (INR (S n) * t) - cos (INR n * t).
Proof.
  intros n t; set (y := INR (S n) * t).
  replace (INR (S (S n)) * t) with (y + t) by (unfold y; rewrite (S_INR (S n)); ring).
  replace (INR n * t) with (y - t) by (unfold y; rewrite S_INR; ring).
  rewrite cos_plus, cos_minus; ring.
Qed.

Lemma cos_mult_eq : forall n t u, cos t = cos u -> cos (INR n * t) = cos (INR n * u) /\ cos (INR (S n) * t) = cos (INR (S n) * u).
Proof.
  induction n as [|n IH]; intros t u H.
  - cbn [INR]; rewrite !Rmult_0_l, !Rmult_1_l; auto.
  - destruct (IH t u H) as [A B]; split; [exact B|]; rewrite !cos_next, A, B, H; reflexivity.
Qed.

Lemma wave_cos : forall l t u, cos t = cos u -> wave l t = wave l u.
Proof.
  intros l t u H; unfold wave; f_equal; f_equal; apply sumn_ext; intros k _; apply (cos_mult_eq k t u H).
Qed.

(** ** The angle of a quaternion *)

Lemma half_sine_sq : forall q, unit q -> half_sine q * half_sine q = 1 - qw q * qw q.
Proof.
  intros q U; unfold half_sine; unfold unit in U.
  pose proof (Rle_0_sqr (qx q)); pose proof (Rle_0_sqr (qy q)); pose proof (Rle_0_sqr (qz q)); unfold Rsqr in *.
  rewrite sqrt_sqrt by lra; lra.
Qed.

Definition half_angle (q : quat) : R := atan2 (half_sine q) (qw q).

Lemma half_angle_sc : forall q, unit q -> cos (half_angle q) = qw q /\ sin (half_angle q) = half_sine q.
Proof. intros q U; apply atan2_sc; pose proof (half_sine_sq q U); lra. Qed.

Lemma trace_quat : forall q, unit q -> trace 3 (as_matrix q) = 4 * (qw q * qw q) - 1.
Proof.
  intros q U; unfold unit in U; unfold trace; cbn [sumn as_matrix mat3]; lra.
Qed.

Lemma turns_half : forall q, unit q -> turns_by q (2 * half_angle q).
Proof.
  intros q U; unfold turns_by; rewrite trace_quat by exact U; rewrite cos_2a_cos; destruct (half_angle_sc q U) as [-> _]; ring.
Qed.

Lemma turns_cos : forall q t u, turns_by q t -> turns_by q u -> cos t = cos u.
Proof. unfold turns_by; intros; lra. Qed.

Lemma close_zero : forall s, 0 <= s -> np_isclose (/ 10 ^ 8) s 0 = true <-> s <= / 10 ^ 8.
Proof.
  intros s H; unfold np_isclose; rewrite Rleb_true, Rabs_R0, Rminus_0_r, (Rabs_right s) by lra.
  split; intros; lra.
Qed.

Lemma half_sine_pos : forall q, 0 <= half_sine q.
Proof. intros; apply sqrt_pos. Qed.

(** the two branches *)
Lemma q_character_far : forall q l, unit q -> (0 < l)%Z -> / 10 ^ 8 < half_sine q ->
  q_character q l = wave (Z.to_nat l) (2 * half_angle q).
Proof.
  intros q l U Hl H; unfold q_character; rewrite (proj2 (Z.eqb_neq l 0)) by lia; fold (half_sine q); fold (half_angle q).
  replace (1 / 2 * (2 * half_angle q)) with (half_angle q) by field.
  destruct (half_angle_sc q U) as [_ S]; rewrite S.
  destruct (np_isclose (/ 10 ^ 8) (half_sine q) 0) eqn:E; cbn [negb].
  - apply close_zero in E; [lra|apply half_sine_pos].
  - pose proof (wave_sine (Z.to_nat l) (2 * half_angle q)) as W.
    replace (2 * half_angle q / 2) with (half_angle q) in W by field; rewrite S in W.
    rewrite INR_IZR_INZ, Z2Nat.id in W by lia.
    assert (P : 0 < half_sine q) by (apply Rlt_trans with (2 := H); apply Rinv_0_lt_compat, pow_lt; lra).
    replace ((IZR l + 1 / 2) * (2 * half_angle q)) with (IZR l * (2 * half_angle q) + half_angle q) by field.
    rewrite <- W; field; lra.
Qed.

Lemma q_character_near : forall q l, unit q -> (0 < l)%Z -> half_sine q <= / 10 ^ 8 -> q_character q l = IZR (2 * l + 1).
Proof.
  intros q l U Hl H; unfold q_character; rewrite (proj2 (Z.eqb_neq l 0)) by lia; fold (half_sine q); fold (half_angle q).
  replace (1 / 2 * (2 * half_angle q)) with (half_angle q) by field.
  destruct (half_angle_sc q U) as [_ S]; rewrite S, (proj2 (close_zero _ (half_sine_pos q)) H); reflexivity.
Qed.

(** ** Close to the identity *)

Lemma sin_mult_le : forall n a, Rabs (sin (INR n * a)) <= INR n * Rabs (sin a).
Proof.
  induction n as [|n IH]; intros a.
  - cbn [INR]; rewrite !Rmult_0_l, sin_0, Rabs_R0; lra.
  - rewrite S_INR; replace ((INR n + 1) * a) with (INR n * a + a) by ring; rewrite sin_plus.
    eapply Rle_trans; [apply Rabs_triang|]; rewrite !Rabs_mult.
    assert (B : forall x, Rabs (cos x) <= 1) by (intros x; apply Rabs_le; pose proof (COS_bound x); lra).
    pose proof (B a); pose proof (B (INR n * a)); pose proof (Rabs_pos (sin a)); pose proof (Rabs_pos (sin (INR n * a))).
    pose proof (IH a).
    assert (Rabs (sin (INR n * a)) * Rabs (cos a) <= Rabs (sin (INR n * a)) * 1) by (apply Rmult_le_compat_l; assumption).
    assert (Rabs (cos (INR n * a)) * Rabs (sin a) <= 1 * Rabs (sin a)) by (apply Rmult_le_compat_r; assumption).
    lra.
Qed.

Lemma cos_defect : forall n a, 0 <= 1 - cos (INR n * (2 * a)) <= 2 * (INR n * INR n) * (sin a * sin a).
Proof.
  intros n a; replace (INR n * (2 * a)) with (2 * (INR n * a)) by ring; rewrite cos_2a_sin.
  pose proof (sin_mult_le n a) as H; set (s := sin (INR n * a)) in *; pose proof (Rabs_pos s).
  assert (Q : forall x, x * x = Rabs x * Rabs x) by (intros x; rewrite <- Rabs_mult, Rabs_right; [reflexivity|apply Rle_ge, Rle_0_sqr]).
  assert (M : Rabs s * Rabs s <= INR n * Rabs (sin a) * (INR n * Rabs (sin a))) by (apply Rmult_le_compat; assumption).
  split.
  - pose proof (Rle_0_sqr s) as P; unfold Rsqr in P; lra.
  - rewrite (Q (sin a)); pose proof (Q s); lra.
Qed.

Lemma wave_defect : forall l a, 0 <= INR (2 * l + 1) - wave l (2 * a) <=
  2 / 3 * (INR l * (INR l + 1) * (2 * INR l + 1)) * (sin a * sin a).
Proof.
  induction l as [|l IH]; intros a.
  - unfold wave; cbn [sumn]; cbn; lra.
  - specialize (IH a); rewrite wave_S; pose proof (cos_defect (S l) a) as C.
    assert (E1 : INR (2 * S l + 1) = INR (2 * l + 1) + 2).
    { replace (2 * S l + 1)%nat with (2 * l + 1 + 2)%nat by lia; rewrite plus_INR; cbn [INR]; lra. }
    rewrite E1, S_INR in *; set (x := INR l) in *; set (ss := sin a * sin a) in *; split; [lra|].
    replace (2 / 3 * ((x + 1) * (x + 1 + 1) * (2 * (x + 1) + 1)) * ss)
      with (2 / 3 * (x * (x + 1) * (2 * x + 1)) * ss + 2 * (2 * ((x + 1) * (x + 1)) * ss)) by field.
    lra.
Qed.

Lemma wave_0_t : forall t, wave 0 t = 1.
Proof. intros; unfold wave; cbn [sumn]; ring. Qed.
Lemma wave_l_0 : forall l, wave l 0 = INR (2 * l + 1).
Proof.
  induction l as [|l IH]; [rewrite wave_0_t; reflexivity|]; rewrite wave_S, IH, Rmult_0_r, cos_0.
  replace (2 * S l + 1)%nat with (2 * l + 1 + 2)%nat by lia; rewrite (plus_INR (2 * l + 1)); cbn [INR]; ring.
Qed.

Lemma tiny_sq : forall s, 0 <= s <= / 10 ^ 8 -> s * s <= / 10 ^ 16.
Proof.
  intros s [H1 H2]; replace (/ 10 ^ 16) with (/ 10 ^ 8 * / 10 ^ 8) by (rewrite <- Rinv_mult; f_equal; ring).
  apply Rmult_le_compat; assumption.
Qed.

Lemma character_value : forall l q, (0 <= l)%Z -> unit q ->
  exists c, so3_character l q = Ret c /\ forall t, turns_by q t ->
    (/ 10 ^ 8 < half_sine q -> c = wave (Z.to_nat l) t) /\
    Rabs (c - wave (Z.to_nat l) t) <= 2 / 3 * (IZR l * (IZR l + 1) * (2 * IZR l + 1)) * / 10 ^ 16.
Proof.
  intros l q Hl U; unfold so3_character; rewrite (proj2 (Z.leb_le 0 l)) by lia; cbn [assert_ bind].
  assert (L : 0 <= IZR l) by (apply IZR_le; lia).
  assert (T : 0 <= / 10 ^ 16) by (apply Rlt_le, Rinv_0_lt_compat, pow_lt; lra).
  assert (K : 0 <= IZR l * (IZR l + 1) * (2 * IZR l + 1)) by (repeat apply Rmult_le_pos; lra).
  assert (B : 0 <= 2 / 3 * (IZR l * (IZR l + 1) * (2 * IZR l + 1)) * / 10 ^ 16) by (repeat apply Rmult_le_pos; lra).
  destruct (Z.eqb_spec l 0) as [->|Ne].
  { exists 1; split; [reflexivity|]; intros t Ht; change (Z.to_nat 0) with 0%nat; rewrite wave_0_t; split; [reflexivity|].
    replace (1 - 1) with 0 by ring; rewrite Rabs_R0; exact B. }
  destruct (Rlt_le_dec (/ 10 ^ 8) (half_sine q)) as [F|N].
  - exists (q_character q l); split; [reflexivity|]; intros t Ht.
    assert (E : q_character q l = wave (Z.to_nat l) t).
    { rewrite q_character_far by (assumption || lia); apply wave_cos, (turns_cos q); [apply turns_half; exact U|exact Ht]. }
    split; [intros _; exact E|]; rewrite E, Rminus_diag_eq, Rabs_R0 by reflexivity; exact B.
  - exists (q_character q l); split; [reflexivity|]; intros t Ht; split; [lra|].
    rewrite q_character_near by (assumption || lia).
    rewrite (wave_cos _ t (2 * half_angle q)) by (apply (turns_cos q); [exact Ht|apply turns_half; exact U]).
    pose proof (wave_defect (Z.to_nat l) (half_angle q)) as D; destruct (half_angle_sc q U) as [_ S]; rewrite S in D.
    rewrite !INR_IZR_INZ, Nat2Z.inj_add, Nat2Z.inj_mul, Z2Nat.id in D by lia.
    change (Z.of_nat 2 * l + Z.of_nat 1)%Z with (2 * l + 1)%Z in D.
    pose proof (tiny_sq _ (conj (half_sine_pos q) N)) as Y.
    rewrite Rabs_right by lra; eapply Rle_trans; [apply D|].
    apply Rmult_le_compat_l; [apply Rmult_le_pos; lra|exact Y].
Qed.

(** ** Conjugate rotations, and the two quaternions of one *)

Lemma character_class : forall l p q, unit p -> unit q -> trace 3 (as_matrix p) = trace 3 (as_matrix q) ->
  so3_character l p = so3_character l q.
Proof.
  intros l p q Up Uq H; unfold so3_character; destruct (0 <=? l)%Z eqn:L; [|reflexivity]; cbn [assert_ bind]; apply Z.leb_le in L.
  destruct (Z.eqb_spec l 0) as [_|Ne]; [reflexivity|]; f_equal.
  pose proof H as H'; rewrite !trace_quat in H' by assumption.
  assert (E : half_sine p = half_sine q).
  { apply Rsqr_inj; try apply half_sine_pos; unfold Rsqr; rewrite !half_sine_sq by assumption; lra. }
  destruct (Rlt_le_dec (/ 10 ^ 8) (half_sine p)) as [F|N].
  - rewrite !q_character_far by (assumption || lia || (rewrite <- E; assumption)).
    apply wave_cos; pose proof (turns_half p Up); pose proof (turns_half q Uq); unfold turns_by in *; lra.
  - rewrite !q_character_near by (assumption || lia || (rewrite <- E; assumption)); reflexivity.
Qed.

Lemma character_standard : forall q, unit q -> / 10 ^ 8 < half_sine q -> so3_character 1 q = Ret (trace 3 (as_matrix q)).
Proof.
  intros q U F; destruct (character_value 1 q ltac:(lia) U) as (c & E & V); rewrite E; f_equal.
  rewrite (proj1 (V _ (turns_half q U)) F), turns_half by exact U; change (Z.to_nat 1) with 1%nat.
  rewrite wave_S, wave_0_t; change (INR 1) with 1; rewrite Rmult_1_l; reflexivity.
Qed.

(** ** Products *)

Lemma sine_zero : forall t, sin (t / 2) = 0 -> forall k, cos (INR k * t) = 1.
Proof.
  intros t H k; replace (INR k * t) with (2 * (INR k * (t / 2))) by field; rewrite cos_2a_sin.
  assert (Z : forall n, sin (INR n * (t / 2)) = 0).
  { induction n as [|n IH]; [cbn [INR]; rewrite Rmult_0_l; apply sin_0|].
    rewrite S_INR; replace ((INR n + 1) * (t / 2)) with (INR n * (t / 2) + t / 2) by ring; rewrite sin_plus, IH, H; ring. }
  rewrite Z; ring.
Qed.

Lemma wave_full : forall t, sin (t / 2) = 0 -> forall l, wave l t = 2 * INR l + 1.
Proof.
  intros t H; induction l as [|l IH]; [rewrite wave_0_t; cbn [INR]; ring|].
  rewrite wave_S, IH, (sine_zero t H), S_INR; ring.
Qed.

Lemma wave_step : forall a m t, (m <= a)%nat -> wave (a - m) t + wave (a + m) t = 2 * cos (INR m * t) * wave a t.
Proof.
  intros a m t H; destruct (Req_dec (sin (t / 2)) 0) as [E|N].
  - rewrite !(wave_full t E), (sine_zero t E), plus_INR, minus_INR by exact H; ring.
  - apply Rmult_eq_reg_l with (sin (t / 2)); [|exact N].
    replace (sin (t / 2) * (2 * cos (INR m * t) * wave a t)) with (2 * cos (INR m * t) * (sin (t / 2) * wave a t)) by ring.
    rewrite Rmult_plus_distr_l, !wave_sine, plus_INR, minus_INR by exact H.
    set (x := INR a * t + t / 2); set (y := INR m * t).
    replace ((INR a - INR m) * t + t / 2) with (x - y) by (unfold x, y; ring).
    replace ((INR a + INR m) * t + t / 2) with (x + y) by (unfold x, y; ring).
    rewrite sin_plus, sin_minus; ring.
Qed.

Fixpoint rsum (n : nat) (f : nat -> R) : R := match n with O => 0 | S n => rsum n f + f n end.

Lemma rsum_cons : forall n f, rsum (S n) f = f 0%nat + rsum n (fun i => f (S i)).
Proof. induction n as [|n IH]; intros f; [cbn; ring|]; change (rsum (S (S n)) f) with (rsum (S n) f + f (S n)); rewrite IH; cbn [rsum]; ring. Qed.

Lemma rsum_ext : forall n f g, (forall i, (i < n)%nat -> f i = g i) -> rsum n f = rsum n g.
Proof. induction n as [|n IH]; intros f g H; [reflexivity|]; cbn [rsum]; rewrite (IH f g), H by (intros; try apply H; lia); reflexivity. Qed.

Lemma wave_product : forall b a t, (b <= a)%nat -> rsum (2 * b + 1) (fun i => wave (a - b + i) t) = wave a t * wave b t.
Proof.
  induction b as [|b IH]; intros a t H.
  - cbn [rsum Nat.mul Nat.add]; rewrite wave_0_t, Nat.sub_0_r, Nat.add_0_r; ring.
  - replace (2 * S b + 1)%nat with (S (S (2 * b + 1))) by lia.
    change (rsum (S (S (2 * b + 1))) (fun i => wave (a - S b + i) t))
      with (rsum (S (2 * b + 1)) (fun i => wave (a - S b + i) t) + wave (a - S b + S (2 * b + 1)) t).
    rewrite rsum_cons, Nat.add_0_r.
    replace (a - S b + S (2 * b + 1))%nat with (a + S b)%nat by lia.
    rewrite (rsum_ext (2 * b + 1) (fun i => wave (a - S b + S i) t) (fun i => wave (a - b + i) t)) by (intros; f_equal; lia).
    rewrite IH, wave_S by lia; pose proof (wave_step a (S b) t H); lra.
Qed.

Lemma weighted_range : forall (f : Z -> R) a b, (a <= b)%Z ->
  weighted f (map (fun j => (j, 1%nat)) (py_range a b)) = rsum (Z.to_nat (b - a)) (fun i => f (a + Z.of_nat i)%Z).
Proof.
  intros f a b H; unfold weighted, py_range; rewrite !map_map; cbn [fst snd INR].
  generalize (Z.to_nat (b - a)); intros n.
  assert (G : forall n s, fold_right Rplus 0 (map (fun i => 1 * f (a + Z.of_nat i)%Z) (seq s n)) = rsum n (fun i => f (a + Z.of_nat (s + i))%Z)).
  { clear n; induction n as [|n IH]; intros s; [reflexivity|]; cbn [seq map fold_right]; rewrite IH, rsum_cons, Nat.add_0_r, Rmult_1_l.
    f_equal; apply rsum_ext; intros i _; f_equal; f_equal; lia. }
  apply (G n 0%nat).
Qed.

Lemma product_range : forall J l t, (0 <= J)%Z -> (0 <= l)%Z ->
  weighted (fun j => wave (Z.to_nat j) t) (map (fun j => (j, 1%nat)) (py_range (Z.abs (J - l)) (J + l + 1))) =
  wave (Z.to_nat J) t * wave (Z.to_nat l) t.
Proof.
  assert (G : forall J l t, (0 <= l <= J)%Z ->
    weighted (fun j => wave (Z.to_nat j) t) (map (fun j => (j, 1%nat)) (py_range (J - l) (J + l + 1))) = wave (Z.to_nat J) t * wave (Z.to_nat l) t).
  { intros J l t H; rewrite weighted_range by lia; rewrite <- wave_product by lia.
    replace (Z.to_nat (J + l + 1 - (J - l))) with (2 * Z.to_nat l + 1)%nat by lia.
    apply rsum_ext; intros i _; f_equal; lia. }
  intros J l t HJ Hl; destruct (Z.le_gt_cases l J).
  - rewrite Z.abs_eq by lia; apply G; lia.
  - replace (Z.abs (J - l)) with (l - J)%Z by lia; rewrite (Z.add_comm J l), G by lia; ring.
Qed.

Lemma tensor_characters : forall J l, (0 <= J)%Z -> (0 <= l)%Z ->
  exists xs, so3_tensor J l = Ret xs /\ NoDup (map fst xs) /\ Forall (fun x => 0 <= fst x)%Z xs /\
    forall t, weighted (fun j => wave (Z.to_nat j) t) xs = wave (Z.to_nat J) t * wave (Z.to_nat l) t.
Proof.
  intros J l HJ Hl; unfold so3_tensor; rewrite (proj2 (Z.leb_le 0 J) HJ), (proj2 (Z.leb_le 0 l) Hl); cbn [assert_ bind].
  eexists; split; [reflexivity|]; split; [|split].
  - rewrite map_map; cbn [fst]; rewrite map_id; unfold py_range; apply FinFun.Injective_map_NoDup; [intros x y; lia|apply seq_NoDup].
  - apply Forall_forall; intros x I; apply in_map_iff in I as (y & <- & I); unfold py_range in I; apply in_map_iff in I as (k & <- & _); cbn [fst]; lia.
  - intros t; apply product_range; assumption.
Qed.

(** ** Orthogonality *)

Lemma wave_density : forall m n t, (1 - cos t) * wave m t * wave n t = cos ((INR m - INR n) * t) - cos ((INR m + INR n + 1) * t).
Proof.
  intros m n t; assert (E : 1 - cos t = 2 * (sin (t / 2) * sin (t / 2))).
  { replace t with (2 * (t / 2)) at 1 by field; rewrite cos_2a_sin; ring. }
  rewrite E; replace (2 * (sin (t / 2) * sin (t / 2)) * wave m t * wave n t) with (2 * (sin (t / 2) * wave m t) * (sin (t / 2) * wave n t)) by ring.
  rewrite !wave_sine; set (x := INR m * t + t / 2); set (y := INR n * t + t / 2).
  replace ((INR m - INR n) * t) with (x - y) by (unfold x, y; ring); replace ((INR m + INR n + 1) * t) with (x + y) by (unfold x, y; field).
  rewrite cos_minus, cos_plus; ring.
Qed.

Lemma sine_prim : forall c t, c <> 0 -> derivable_pt_lim (fun t => / c * sin (c * t)) t (cos (c * t)).
Proof.
  intros c t H; replace (cos (c * t)) with (/ c * (cos (c * t) * c)) by (field; exact H).
  apply (derivable_pt_lim_scal (fun t => sin (c * t)) (/ c)).
  apply (derivable_pt_lim_comp (fun t => c * t) sin); [|apply derivable_pt_lim_sin].
  pose proof (derivable_pt_lim_scal id c t 1 (derivable_pt_lim_id t)) as D; rewrite Rmult_1_r in D; exact D.
Qed.

Lemma sin_k_pi : forall z : Z, sin (IZR z * PI) = 0.
Proof. intros z; apply sin_eq_0_1; exists z; reflexivity. Qed.

Lemma wave_orthogonal : forall m n, exists F,
  (forall t, derivable_pt_lim F t ((1 - cos t) * wave m t * wave n t)) /\ F PI - F 0 = if Nat.eqb m n then PI else 0.
Proof.
  intros m n; set (c := INR m + INR n + 1); assert (C : c <> 0) by (unfold c; pose proof (pos_INR m); pose proof (pos_INR n); lra).
  assert (SC : sin (c * PI) = 0).
  { unfold c; rewrite !INR_IZR_INZ, <- !plus_IZR; apply sin_k_pi. }
  destruct (Nat.eqb_spec m n) as [->|N].
  - exists (fun t => t - / c * sin (c * t)); split.
    + intros t; rewrite wave_density; replace (cos ((INR n - INR n) * t)) with 1 by (rewrite Rminus_diag_eq, Rmult_0_l, cos_0; reflexivity).
      apply (derivable_pt_lim_minus id (fun t => / c * sin (c * t))); [apply derivable_pt_lim_id|apply sine_prim; exact C].
    + rewrite SC, !Rmult_0_r, sin_0; ring.
  - set (d := INR m - INR n); assert (D : d <> 0) by (unfold d; intros E; apply N, INR_eq; lra).
    assert (SD : sin (d * PI) = 0) by (unfold d; rewrite !INR_IZR_INZ, <- minus_IZR; apply sin_k_pi).
    exists (fun t => / d * sin (d * t) - / c * sin (c * t)); split.
    + intros t; rewrite wave_density; apply (derivable_pt_lim_minus (fun t => / d * sin (d * t)) (fun t => / c * sin (c * t))); apply sine_prim; assumption.
    + rewrite SC, SD, !Rmult_0_r, sin_0; ring.
Qed.
