(** Quaternions, their matrices, and the planar elements among them. *)
From Coq Require Import Reals ZArith Bool List Lia Lra.
From Verif Require Import LibRes LibMat LibTrig FinGroupModel SpecFinGroup SpecGroup ParamModel ParamProofs
  PlanarModel SpecPlanar PlanarProofs SpaceModel SpecSpace.
Import ListNotations.
Open Scope R_scope.

(** ** 3x3 matrices *)

Ltac mat_entries i j Hi Hj :=
  destruct i as [|[|[|i]]]; [| | |exfalso; lia]; (destruct j as [|[|[|j]]]; [| | |exfalso; lia]); clear Hi Hj.
Ltac mat3_ring := intros i j Hi Hj; mat_entries i j Hi Hj; cbn; ring.

Lemma meq_refl3 : forall A, meq 3 3 A A.
Proof. intros A i j _ _; reflexivity. Qed.
Lemma meq_sym3 : forall A B, meq 3 3 A B -> meq 3 3 B A.
Proof. intros A B H i j Hi Hj; symmetry; auto. Qed.
Lemma meq_trans3 : forall A B C, meq 3 3 A B -> meq 3 3 B C -> meq 3 3 A C.
Proof. intros A B C H K i j Hi Hj; rewrite H, K; auto. Qed.
Lemma mmul3 : forall A B C D, meq 3 3 A B -> meq 3 3 C D -> meq 3 3 (mmul 3 A C) (mmul 3 B D).
Proof.
  intros A B C D H K i j Hi Hj; unfold mmul; apply sumn_ext; intros l Hl; rewrite H, K; auto.
Qed.
Lemma mtr3 : forall A B, meq 3 3 A B -> meq 3 3 (mtr A) (mtr B).
Proof. intros A B H i j Hi Hj; apply H; assumption. Qed.
Lemma conj3 : forall A B C D, meq 3 3 A B -> meq 3 3 C D -> meq 3 3 (conjugate A C) (conjugate B D).
Proof. intros A B C D H K; apply mmul3; [apply mtr3, H|apply mmul3; assumption]. Qed.

(** ** Quaternions *)

Lemma quat_eq : forall p q, qx p = qx q -> qy p = qy q -> qz p = qz q -> qw p = qw q -> p = q.
Proof. intros [] []; cbn; intros; subst; reflexivity. Qed.

Ltac quat_ring := intros; apply quat_eq; cbn; ring.

Lemma qmul_assoc : forall p q r, qmul (qmul p q) r = qmul p (qmul q r).
Proof. quat_ring. Qed.
Lemma qmul_id_l : forall q, qmul so3_id q = q.
Proof. quat_ring. Qed.
Lemma qmul_id_r : forall q, qmul q so3_id = q.
Proof. quat_ring. Qed.
Lemma qconj_mul : forall p q, qconj (qmul p q) = qmul (qconj q) (qconj p).
Proof. quat_ring. Qed.
Lemma qconj_conj : forall q, qconj (qconj q) = q.
Proof. quat_ring. Qed.
Lemma qopp_mul_l : forall p q, qmul (qopp p) q = qopp (qmul p q).
Proof. quat_ring. Qed.
Lemma qopp_mul_r : forall p q, qmul p (qopp q) = qopp (qmul p q).
Proof. quat_ring. Qed.
Lemma qopp_opp : forall q, qopp (qopp q) = q.
Proof. quat_ring. Qed.

Lemma unit_qsq : forall q, unit q -> qsq q = 1.
Proof. intros q H; exact H. Qed.

Lemma qmul_conj_r : forall q, unit q -> qmul q (qconj q) = so3_id.
Proof. intros q H; unfold unit in H; apply quat_eq; cbn; try ring; rewrite <- H; ring. Qed.
Lemma qmul_conj_l : forall q, unit q -> qmul (qconj q) q = so3_id.
Proof. intros q H; unfold unit in H; apply quat_eq; cbn; try ring; rewrite <- H; ring. Qed.

Lemma qsq_mul : forall p q, qsq (qmul p q) = qsq p * qsq q.
Proof. intros [] []; unfold qsq; cbn; ring. Qed.
Lemma unit_mul : forall p q, unit p -> unit q -> unit (qmul p q).
Proof. intros p q Hp Hq; change (qsq (qmul p q) = 1); rewrite qsq_mul, (unit_qsq p Hp), (unit_qsq q Hq); ring. Qed.
Lemma unit_conj : forall q, unit q -> unit (qconj q).
Proof. intros q H; unfold unit in *; cbn; rewrite <- H; ring. Qed.
Lemma unit_opp : forall q, unit q -> unit (qopp q).
Proof. intros q H; unfold unit in *; cbn; rewrite <- H; ring. Qed.
Lemma unit_id : unit so3_id.
Proof. unfold unit; cbn; ring. Qed.
Lemma unit_turn : forall t, unit (turn_z t).
Proof. intros t; unfold unit; cbn; pose proof (sin2cos2 t); lra. Qed.

Lemma norm_unit : forall q, unit q -> qnorm q = 1.
Proof. intros q H; unfold qnorm; rewrite (unit_qsq q H); apply sqrt_1. Qed.

Lemma to_rot_unit : forall q, unit q -> to_rot q = Ret q.
Proof.
  intros q H; unfold to_rot; rewrite (norm_unit q H), np_isclose_refl by apply tol_pos.
  cbn [assert_ bind]; f_equal; rewrite Rinv_1; quat_ring.
Qed.

Lemma so3_element_unit : forall q, unit q -> so3_element q = Ret q.
Proof. intros q H; unfold so3_element, so3_is_element; rewrite to_rot_unit by exact H; reflexivity. Qed.
Lemma is_element_unit : forall q, unit q -> so3_is_element q = true.
Proof. intros q H; unfold so3_is_element; rewrite to_rot_unit by exact H; reflexivity. Qed.

Lemma combine_unit : forall p q, unit p -> unit q -> q_combine p q = Ret (qmul p q).
Proof. intros; unfold q_combine; rewrite !to_rot_unit by assumption; reflexivity. Qed.
Lemma invert_unit : forall q, unit q -> q_invert q = Ret (qconj q).
Proof. intros; unfold q_invert; rewrite to_rot_unit by assumption; reflexivity. Qed.
Lemma so3_mul_unit : forall p q, unit p -> unit q -> so3_mul p q = Ret (qmul p q).
Proof.
  intros p q Hp Hq; unfold so3_mul; rewrite combine_unit by assumption; cbn [bind].
  apply so3_element_unit, unit_mul; assumption.
Qed.
Lemma so3_inv_unit : forall q, unit q -> so3_inv q = Ret (qconj q).
Proof.
  intros q Hq; unfold so3_inv; rewrite invert_unit by assumption; cbn [bind].
  apply so3_element_unit, unit_conj; assumption.
Qed.

(** What passes the check of the code is normalised by every operation. *)
Lemma to_rot_accepts : forall q, so3_is_element q = true -> exists r, to_rot q = Ret r /\ unit r.
Proof.
  intros q H; unfold so3_is_element in H; destruct (to_rot q) as [|r] eqn:E; [discriminate|].
  exists r; split; [reflexivity|]; unfold to_rot in E; apply assert_Ret in E as [C E]; apply Ret_inj in E; subst r.
  unfold np_isclose in C; apply Rleb_true in C; rewrite Rabs_R1 in C.
  assert (T : / 10 ^ 8 + / 10 ^ 5 * 1 < 1 / 2) by (replace (/ 10 ^ 8 + / 10 ^ 5 * 1) with (1001 / 100000000) by field; lra).
  assert (P : 0 < qnorm q).
  { destruct (Rlt_dec 0 (qnorm q)) as [G|G]; [exact G|exfalso].
    assert (A : Rabs (qnorm q - 1) = 1 - qnorm q) by (rewrite Rabs_left1 by lra; ring); rewrite A in C; lra. }
  assert (Q : qnorm q * qnorm q = qsq q).
  { unfold qnorm; apply sqrt_sqrt; unfold qsq.
    pose proof (Rle_0_sqr (qx q)) as A1; pose proof (Rle_0_sqr (qy q)) as A2;
    pose proof (Rle_0_sqr (qz q)) as A3; pose proof (Rle_0_sqr (qw q)) as A4; unfold Rsqr in *; lra. }
  unfold unit; cbn.
  transitivity (/ qnorm q * / qnorm q * qsq q); [unfold qsq; ring|].
  rewrite <- Q; field; lra.
Qed.

(** ** Their matrices *)

Lemma mat_mul : forall p q, meq 3 3 (as_matrix (qmul p q)) (mmul 3 (as_matrix p) (as_matrix q)).
Proof. intros [x y z w] [x' y' z' w']; mat3_ring. Qed.
Lemma mat_conj : forall q, meq 3 3 (as_matrix (qconj q)) (mtr (as_matrix q)).
Proof. intros q; mat3_ring. Qed.
Lemma mat_opp : forall q, as_matrix (qopp q) = as_matrix q.
Proof.
  intros q; unfold as_matrix; cbn; f_equal; ring.
Qed.
Lemma mat_id : meq 3 3 (as_matrix so3_id) mid.
Proof. mat3_ring. Qed.

Lemma mat_orth : forall q, unit q -> meq 3 3 (mmul 3 (as_matrix q) (mtr (as_matrix q))) mid.
Proof.
  intros q H; eapply meq_trans3; [apply mmul3; [apply meq_refl3|apply meq_sym3, mat_conj]|].
  eapply meq_trans3; [apply meq_sym3, mat_mul|]; rewrite qmul_conj_r by exact H; apply mat_id.
Qed.
Lemma mat_orth' : forall q, unit q -> meq 3 3 (mmul 3 (mtr (as_matrix q)) (as_matrix q)) mid.
Proof.
  intros q H; eapply meq_trans3; [apply mmul3; [apply meq_sym3, mat_conj|apply meq_refl3]|].
  eapply meq_trans3; [apply meq_sym3, mat_mul|]; rewrite qmul_conj_l by exact H; apply mat_id.
Qed.

Lemma mat_det : forall q, unit q -> det3 (as_matrix q) = 1.
Proof.
  intros q H.
  assert (E : det3 (as_matrix q) = qsq q * qsq q * qsq q) by (unfold det3, dot, qsq; cbn; ring).
  rewrite E, (unit_qsq q H); ring.
Qed.

Lemma mat_rotates : forall q v i, unit q -> (i < 3)%nat -> mvec 3 (as_matrix q) v i = rotated q v i.
Proof.
  intros q v i H Hi.
  assert (E : mvec 3 (as_matrix q) v i = rotated q v i + (qsq q - 1) * v i).
  { destruct i as [|[|[|i]]]; [| | |exfalso; lia]; unfold rotated, qsq, mvec; cbn; ring. }
  rewrite E, (unit_qsq q H); ring.
Qed.

Definition qdot (p q : quat) : R := qx p * qx q + qy p * qy q + qz p * qz q + qw p * qw q.

Lemma sum_sq_0 : forall a b c d, a * a + b * b + c * c + d * d = 0 -> a = 0 /\ b = 0 /\ c = 0 /\ d = 0.
Proof.
  intros a b c d H.
  pose proof (Rle_0_sqr a) as A1; pose proof (Rle_0_sqr b) as A2;
  pose proof (Rle_0_sqr c) as A3; pose proof (Rle_0_sqr d) as A4.
  assert (Rsqr a = 0 /\ Rsqr b = 0 /\ Rsqr c = 0 /\ Rsqr d = 0) as (B1 & B2 & B3 & B4)
    by (unfold Rsqr in *; repeat split; lra).
  repeat split; apply Rsqr_0_uniq; assumption.
Qed.

(** Two quaternions have the same matrix exactly when they agree up to sign. *)
Lemma mat_inj : forall p q, unit p -> unit q -> meq 3 3 (as_matrix p) (as_matrix q) -> p = q \/ p = qopp q.
Proof.
  intros p q Hp Hq M.
  assert (E : forall i j, (i < 3)%nat -> (j < 3)%nat -> as_matrix p i j = as_matrix q i j) by exact M.
  pose proof (E 0 0 ltac:(lia) ltac:(lia))%nat as E00; pose proof (E 0 1 ltac:(lia) ltac:(lia))%nat as E01;
  pose proof (E 0 2 ltac:(lia) ltac:(lia))%nat as E02; pose proof (E 1 0 ltac:(lia) ltac:(lia))%nat as E10;
  pose proof (E 1 1 ltac:(lia) ltac:(lia))%nat as E11; pose proof (E 1 2 ltac:(lia) ltac:(lia))%nat as E12;
  pose proof (E 2 0 ltac:(lia) ltac:(lia))%nat as E20; pose proof (E 2 1 ltac:(lia) ltac:(lia))%nat as E21;
  pose proof (E 2 2 ltac:(lia) ltac:(lia))%nat as E22; clear E M.
  unfold unit in *; cbn in *.
  assert (D : qdot p q * qdot p q = 1).
  { assert (Xx : qx p * qx p = qx q * qx q) by lra; assert (Yy : qy p * qy p = qy q * qy q) by lra;
    assert (Zz : qz p * qz p = qz q * qz q) by lra; assert (Ww : qw p * qw p = qw q * qw q) by lra;
    assert (XY : qx p * qy p = qx q * qy q) by lra; assert (XZ : qx p * qz p = qx q * qz q) by lra;
    assert (XW : qx p * qw p = qx q * qw q) by lra; assert (YZ : qy p * qz p = qy q * qz q) by lra;
    assert (YW : qy p * qw p = qy q * qw q) by lra; assert (ZW : qz p * qw p = qz q * qw q) by lra.
    transitivity ((qx p * qx p) * (qx q * qx q) + (qy p * qy p) * (qy q * qy q) + (qz p * qz p) * (qz q * qz q)
      + (qw p * qw p) * (qw q * qw q) + 2 * ((qx p * qy p) * (qx q * qy q)) + 2 * ((qx p * qz p) * (qx q * qz q))
      + 2 * ((qx p * qw p) * (qx q * qw q)) + 2 * ((qy p * qz p) * (qy q * qz q))
      + 2 * ((qy p * qw p) * (qy q * qw q)) + 2 * ((qz p * qw p) * (qz q * qw q))); [unfold qdot; ring|].
    rewrite Xx, Yy, Zz, Ww, XY, XZ, XW, YZ, YW, ZW.
    transitivity ((qx q * qx q + qy q * qy q + qz q * qz q + qw q * qw q) *
                  (qx q * qx q + qy q * qy q + qz q * qz q + qw q * qw q)); [ring|rewrite Hq; ring]. }
  apply sq_1 in D as [D|D]; [left|right]; unfold qdot in D.
  - assert (S : (qx p - qx q) * (qx p - qx q) + (qy p - qy q) * (qy p - qy q) + (qz p - qz q) * (qz p - qz q)
       + (qw p - qw q) * (qw p - qw q) = 0) by lra.
    apply sum_sq_0 in S as (S1 & S2 & S3 & S4); apply quat_eq; lra.
  - assert (S : (qx p + qx q) * (qx p + qx q) + (qy p + qy q) * (qy p + qy q) + (qz p + qz q) * (qz p + qz q)
       + (qw p + qw q) * (qw p + qw q) = 0) by lra.
    apply sum_sq_0 in S as (S1 & S2 & S3 & S4); apply quat_eq; cbn; lra.
Qed.

(** Entries of such a matrix are at most one. *)
Lemma orth_entry : forall A i j, meq 3 3 (mmul 3 A (mtr A)) mid -> (i < 3)%nat -> (j < 3)%nat ->
  Rabs (A i j) <= 1.
Proof.
  intros A i j H Hi Hj; specialize (H i i Hi Hi); unfold mmul, mtr, mid in H; rewrite Nat.eqb_refl in H.
  cbn [sumn] in H.
  pose proof (Rle_0_sqr (A i 0%nat)) as A1; pose proof (Rle_0_sqr (A i 1%nat)) as A2;
  pose proof (Rle_0_sqr (A i 2%nat)) as A3; unfold Rsqr in *.
  rewrite <- Rabs_R1; apply Rsqr_le_abs_0; unfold Rsqr.
  destruct j as [|[|[|j]]]; [lra|lra|lra|exfalso; lia].
Qed.

Lemma abs_le_inv : forall a e, Rabs a <= e -> - e <= a <= e.
Proof. intros a e H; pose proof (Rle_abs a); pose proof (Rle_abs (- a)); rewrite Rabs_Ropp in *; lra. Qed.

(** Conjugation by an orthogonal matrix at most multiplies errors by nine. *)
Lemma conj_error : forall A B C eps, 0 <= eps -> meq 3 3 (mmul 3 A (mtr A)) mid ->
  (forall i j, (i < 3)%nat -> (j < 3)%nat -> Rabs (B i j - C i j) <= eps) ->
  forall i j, (i < 3)%nat -> (j < 3)%nat -> Rabs (conjugate A B i j - conjugate A C i j) <= 9 * eps.
Proof.
  intros A B C eps He HA H i j Hi Hj.
  assert (T : forall k l, (k < 3)%nat -> (l < 3)%nat -> Rabs (A k i * ((B k l - C k l) * A l j)) <= eps).
  { intros k l Hk Hl; rewrite !Rabs_mult.
    pose proof (orth_entry A k i HA Hk Hi); pose proof (orth_entry A l j HA Hl Hj); pose proof (H k l Hk Hl).
    pose proof (Rabs_pos (A k i)); pose proof (Rabs_pos (A l j)); pose proof (Rabs_pos (B k l - C k l)).
    apply Rle_trans with (1 * (eps * 1)); [|lra].
    apply Rmult_le_compat; [assumption| |assumption|].
    - apply Rmult_le_pos; assumption.
    - apply Rmult_le_compat; assumption. }
  replace (conjugate A B i j - conjugate A C i j) with
    (A 0%nat i * ((B 0%nat 0%nat - C 0%nat 0%nat) * A 0%nat j) + A 0%nat i * ((B 0%nat 1%nat - C 0%nat 1%nat) * A 1%nat j)
     + A 0%nat i * ((B 0%nat 2%nat - C 0%nat 2%nat) * A 2%nat j)
     + (A 1%nat i * ((B 1%nat 0%nat - C 1%nat 0%nat) * A 0%nat j) + A 1%nat i * ((B 1%nat 1%nat - C 1%nat 1%nat) * A 1%nat j)
     + A 1%nat i * ((B 1%nat 2%nat - C 1%nat 2%nat) * A 2%nat j))
     + (A 2%nat i * ((B 2%nat 0%nat - C 2%nat 0%nat) * A 0%nat j) + A 2%nat i * ((B 2%nat 1%nat - C 2%nat 1%nat) * A 1%nat j)
     + A 2%nat i * ((B 2%nat 2%nat - C 2%nat 2%nat) * A 2%nat j))) by (unfold conjugate, mmul, mtr; cbn [sumn]; ring).
  pose proof (T 0 0 ltac:(lia) ltac:(lia))%nat as T00; pose proof (T 0 1 ltac:(lia) ltac:(lia))%nat as T01;
  pose proof (T 0 2 ltac:(lia) ltac:(lia))%nat as T02; pose proof (T 1 0 ltac:(lia) ltac:(lia))%nat as T10;
  pose proof (T 1 1 ltac:(lia) ltac:(lia))%nat as T11; pose proof (T 1 2 ltac:(lia) ltac:(lia))%nat as T12;
  pose proof (T 2 0 ltac:(lia) ltac:(lia))%nat as T20; pose proof (T 2 1 ltac:(lia) ltac:(lia))%nat as T21;
  pose proof (T 2 2 ltac:(lia) ltac:(lia))%nat as T22.
  apply Rabs_le; apply abs_le_inv in T00, T01, T02, T10, T11, T12, T20, T21, T22; split; lra.
Qed.

(** ** Planar elements *)

(** The quaternion of a turn by [t] after a half turn around X if [k]. *)
Definition plane_quat (k : Z) (t : R) : quat :=
  if (k =? 0)%Z then turn_z (t / 2) else Quat (cos (t / 2)) (sin (t / 2)) 0 0.

Lemma unit_plane : forall k t, unit (plane_quat k t).
Proof.
  intros k t; unfold plane_quat; destruct (k =? 0)%Z; [apply unit_turn|].
  unfold unit; cbn; pose proof (sin2cos2 (t / 2)); lra.
Qed.

Lemma half_angle : forall t, cos t = cos (t / 2) * cos (t / 2) - sin (t / 2) * sin (t / 2) /\
  sin t = 2 * (sin (t / 2) * cos (t / 2)).
Proof.
  intros t; assert (E : t = t / 2 + t / 2) by field; split.
  - rewrite E at 1; apply cos_plus.
  - rewrite E at 1; rewrite sin_plus; ring.
Qed.

Lemma mat_turn : forall t, meq 3 3 (as_matrix (turn_z (t / 2))) (Rz t).
Proof.
  intros t i j Hi Hj; destruct (half_angle t) as [C S]; pose proof (sin2cos2 (t / 2)).
  mat_entries i j Hi Hj; cbn; rewrite ?C, ?S; lra.
Qed.

Lemma mat_plane : forall k t, meq 3 3 (as_matrix (plane_quat k t)) (mmul 3 (Rz t) (halfX k)).
Proof.
  intros k t; unfold plane_quat, halfX; destruct (k =? 0)%Z.
  - eapply meq_trans3; [apply mat_turn|]; intros i j Hi Hj; mat_entries i j Hi Hj; cbn; ring.
  - intros i j Hi Hj; destruct (half_angle t) as [C S]; pose proof (sin2cos2 (t / 2)).
    mat_entries i j Hi Hj; cbn; rewrite ?C, ?S; lra.
Qed.

(** Which of the planar groups are cyclic, and which are dihedral. *)
Definition cyclic_like (G : pgrp) : Prop :=
  G = SO2 \/ exists N, (0 < N)%Z /\ G = Fin (Cyc N).
Definition dihedral_like (G : pgrp) : Prop :=
  G = O2 \/ exists N, (0 < N)%Z /\ G = Fin (Dih N).

Lemma flip_01 : forall G v, pmember G v -> (flip_of v = 0 \/ flip_of v = 1)%Z.
Proof.
  intros [G| |] v H; destruct v as [[r|f r]|t|f t]; cbn in *; try contradiction; auto.
  - destruct G; cbn in H; try contradiction; destruct H; auto.
  - destruct H; auto.
Qed.

Lemma cyclic_flip : forall G v, cyclic_like G -> pmember G v -> flip_of v = 0%Z.
Proof.
  intros G v [->|(N & HN & ->)] H; destruct v as [[r|f r]|t|f t]; cbn in *; try contradiction; reflexivity.
Qed.

(** Inclusion. *)
Lemma turn_quat_eq : forall G v, cyclic_like G -> pmember G v ->
  turn_quat G v = Ret (turn_z (angle_of G v / 2)).
Proof.
  intros G v [->|(N & HN & ->)] H; destruct v as [[r|f r]|t|f t]; cbn in H; try contradiction; unfold turn_quat.
  - unfold to_radians1; rewrite so2_norm_eq, m_id by exact H; reflexivity.
  - rewrite to_radians1_cyc by exact HN; reflexivity.
Qed.

Lemma to_radians2_dih : forall N f r, (0 < N)%Z -> (f = 0 \/ f = 1)%Z ->
  to_radians2 (Fin (Dih N)) (VF (VD f r)) = Ret (f, ang N r).
Proof.
  intros N f r HN Hf; unfold to_radians2, dn_change_param.
  destruct Hf as [->| ->]; cbn [Z.eqb Pos.eqb orb assert_ bind fst snd]; do 2 f_equal; apply angle_form; exact HN.
Qed.

Lemma dih_quat_eq : forall G v, dihedral_like G -> pmember G v ->
  dih_quat G v = Ret (plane_quat (flip_of v) (angle_of G v)).
Proof.
  intros G v [->|(N & HN & ->)] H; destruct v as [[r|f r]|t|f t]; cbn in H; try contradiction; unfold dih_quat.
  - destruct H as [Hf Ht]; unfold to_radians2; rewrite o2_norm_eq, m_id by exact Ht; cbn [bind fst snd].
    destruct Hf as [->| ->]; reflexivity.
  - destruct H as [Hf Hr]; rewrite to_radians2_dih by assumption; cbn [bind fst snd].
    destruct Hf as [->| ->]; reflexivity.
Qed.

(** Restriction of the exact elements. *)
Lemma atan2_half : forall t s, s * s = 1 ->
  same_angle (2 * atan2 (s * sin (t / 2)) (s * cos (t / 2))) t.
Proof.
  intros t s Hs; apply sq_1 in Hs as [->| ->].
  - rewrite !Rmult_1_l; destruct (atan2_angle (t / 2)) as [n ->]; exists (2 * n)%Z; rewrite mult_IZR; field.
  - replace (-1 * sin (t / 2)) with (sin (t / 2 + PI)) by (rewrite neg_sin; ring).
    replace (-1 * cos (t / 2)) with (cos (t / 2 + PI)) by (rewrite neg_cos; ring).
    destruct (atan2_angle (t / 2 + PI)) as [n ->]; exists (2 * n + 1)%Z; rewrite plus_IZR, mult_IZR; field.
Qed.

Lemma element_radians_exact : forall G v t, cyclic_like G -> pmember G v -> same_angle t (angle_of G v) ->
  element_radians G t = Ret v.
Proof.
  intros G v t [->|(N & HN & ->)] H E; destruct v as [[r|f r]|u|f u]; cbn in H; try contradiction.
  - unfold element_radians; rewrite pelement_so2; do 2 f_equal; apply m_eq_id; assumption.
  - destruct E as [n ->]; cbn [angle_of]; unfold element_radians.
    rewrite (cn_from_radians N _ (r + N * n) PInt HN)
      by (rewrite plus_IZR, mult_IZR; pose proof (IZR_pos N HN); field; lra).
    rewrite Z.mul_comm, Z.mod_add, Z.mod_small by lia.
    cbn [cn_change_param bind fst snd]; unfold is_element.
    destruct (Z.leb_spec 0 r); [|lia]; destruct (Z.ltb_spec r N); [|lia]; reflexivity.
Qed.

Lemma element_radians2_exact : forall G v t, dihedral_like G -> pmember G v -> same_angle t (angle_of G v) ->
  element_radians2 G (flip_of v) t = Ret v.
Proof.
  intros G v t [->|(N & HN & ->)] H E; destruct v as [[r|f r]|u|f u]; cbn in H; try contradiction.
  - destruct H as [Hf Hu]; unfold element_radians2; cbn [flip_of].
    rewrite pelement_o2 by exact Hf; do 2 f_equal; apply m_eq_id; assumption.
  - destruct H as [Hf Hr], E as [n ->]; cbn [angle_of flip_of]; unfold element_radians2.
    rewrite (dn_from_radians N f _ (r + N * n) PInt HN)
      by (rewrite plus_IZR, mult_IZR; pose proof (IZR_pos N HN); field; lra).
    rewrite Z.mul_comm, Z.mod_add, Z.mod_small by lia.
    unfold dn_change_param; destruct Hf as [->| ->]; cbn [Z.eqb Pos.eqb orb assert_ bind fst snd];
      unfold is_element; destruct (Z.leb_spec 0 r); [|lia| |lia]; destruct (Z.ltb_spec r N); try lia; reflexivity.
Qed.

Lemma isclose_0 : forall t, 0 < t -> np_isclose t 0 0 = true.
Proof. intros t H; apply np_isclose_refl; exact H. Qed.

Lemma turn_of_exact : forall G v s, cyclic_like G -> pmember G v -> s * s = 1 ->
  turn_of G (qscal s (turn_z (angle_of G v / 2))) = Ret (Some v).
Proof.
  intros G v s HG Hv Hs; unfold turn_of, xy_zero; cbn [qscal qx qy qz qw turn_z].
  rewrite Rmult_0_r, np_isclose_refl by apply tol_pos; cbn [andb].
  rewrite (element_radians_exact G v) by (try assumption; apply atan2_half; exact Hs); reflexivity.
Qed.

Lemma isclose_zero_bound : forall a, np_isclose (/ 10 ^ 8) a 0 = true -> Rabs a <= / 10 ^ 8.
Proof. intros a H; unfold np_isclose in H; apply Rleb_true in H; rewrite Rminus_0_r, Rabs_R0 in H; lra. Qed.

Lemma small_sq : forall a, Rabs a <= / 10 ^ 8 -> a * a <= 1 / 10000000000000000.
Proof.
  intros a H; replace (/ 10 ^ 8) with (1 / 100000000) in H by field.
  pose proof (Rabs_pos a).
  replace (a * a) with (Rabs a * Rabs a) by (rewrite <- Rabs_mult; apply Rabs_right, Rle_ge, Rle_0_sqr).
  apply Rle_trans with (1 / 100000000 * (1 / 100000000)); [apply Rmult_le_compat; assumption|lra].
Qed.

Lemma not_both_zero : forall a b, a * a + b * b = 1 ->
  np_isclose (/ 10 ^ 8) a 0 && np_isclose (/ 10 ^ 8) b 0 = false.
Proof.
  intros a b H; apply not_true_is_false; intros C; apply andb_prop in C as [A B].
  apply isclose_zero_bound, small_sq in A; apply isclose_zero_bound, small_sq in B; lra.
Qed.

Lemma dih_of_exact : forall G v s, dihedral_like G -> pmember G v -> s * s = 1 ->
  dih_of G (qscal s (plane_quat (flip_of v) (angle_of G v))) = Ret (Some v).
Proof.
  intros G v s HG Hv Hs; unfold dih_of, plane_quat.
  pose proof (element_radians2_exact G v _ HG Hv (atan2_half (angle_of G v) s Hs)) as E.
  destruct (flip_01 G v Hv) as [F|F]; rewrite F in *; cbn [Z.eqb Pos.eqb].
  - unfold xy_zero; cbn [qscal qx qy qz qw turn_z]; rewrite Rmult_0_r, np_isclose_refl by apply tol_pos; cbn [andb].
    rewrite E; reflexivity.
  - unfold xy_zero, zw_zero; cbn [qscal qx qy qz qw]; rewrite not_both_zero.
    + rewrite Rmult_0_r, np_isclose_refl by apply tol_pos; cbn [andb]; rewrite E; reflexivity.
    + replace (s * cos (angle_of G v / 2) * (s * cos (angle_of G v / 2)) + s * sin (angle_of G v / 2) * (s * sin (angle_of G v / 2)))
        with (s * s * (sin (angle_of G v / 2) * sin (angle_of G v / 2) + cos (angle_of G v / 2) * cos (angle_of G v / 2))) by ring.
      rewrite Hs, sin2cos2; ring.
Qed.

(** It never raises. *)
Lemma turn_of_total : forall G u, exists o, turn_of G u = Ret o.
Proof. intros G u; unfold turn_of, or_none; destruct (xy_zero u); [destruct (element_radians _ _)|]; eauto. Qed.
Lemma dih_of_total : forall G u, exists o, dih_of G u = Ret o.
Proof.
  intros G u; unfold dih_of, or_none; destruct (xy_zero u); [destruct (element_radians2 _ _ _); eauto|].
  destruct (zw_zero u); [destruct (element_radians2 _ _ _)|]; eauto.
Qed.
