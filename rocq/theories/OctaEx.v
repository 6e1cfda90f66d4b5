(** Concrete rotations of the cube. *)
From Coq Require Import Reals ZArith Bool List Lia Lra.
From Verif Require Import LibRes LibMat LibTrig FinGroupModel SpecFinGroup SpecGroup PlanarModel SpecPlanar PlanarProofs
  SpaceModel SpecSpace SpaceProofs SpaceThms OctaModel SpecOcta OctaProofs OctaSub OctaThms.
Import ListNotations.
Open Scope R_scope.

(** A third of a turn around a diagonal and the axes it permutes. *)
Lemma third_turn : octahedral (Quat (1/2) (1/2) (1/2) (1/2)) /\
  meq 3 3 (as_matrix (Quat (1/2) (1/2) (1/2) (1/2))) (mat3 0 0 1 1 0 0 0 1 0).
Proof.
  split.
  - apply (proj1 (Forall_forall _ _) elements_octahedral).
    change (In (nth 7 octa_elements so3_id) octa_elements); apply nth_In; cbn; lia.
  - intros i j Hi Hj; mat_entries i j Hi Hj; cbn [as_matrix mat3 qx qy qz qw]; lra.
Qed.

(** A unit quaternion that is not a rotation of the cube is refused. *)
Lemma eighth_refused : unit (Quat 0 0 (3/5) (4/5)) /\ octa_is_element (Quat 0 0 (3/5) (4/5)) = false.
Proof.
  assert (U : unit (Quat 0 0 (3/5) (4/5))) by (unfold unit; cbn [qx qy qz qw]; lra).
  split; [exact U|]; apply not_true_is_false; intros H.
  destruct (octa_admits _ H) as (r & p & E & Hp & B).
  rewrite to_rot_unit in E by exact U; apply Ret_inj in E; subst r.
  pose proof (proj2 (proj1 (Forall_forall _ _) elements_octahedral p Hp) 0%nat 0%nat ltac:(lia) ltac:(lia)) as S.
  specialize (B 0%nat 0%nat ltac:(lia) ltac:(lia)); cbn [as_matrix mat3 qx qy qz qw] in B.
  replace (/ 10 ^ 4) with (1 / 10000) in B by field; apply abs_le_inv in B.
  destruct S as [S|[S|S]]; cbn [as_matrix mat3] in S; rewrite S in B; lra.
Qed.

(** Quarter turns seen from the frame of the third of a turn. *)
Lemma moved_quarter : exists s g, octa_subgroup (OcPlane false 4) (Quat (1/2) (1/2) (1/2) (1/2)) = Ret s /\
  os_incl s (turn_by 1) = Ret g /\ octahedral g /\
  meq 3 3 (as_matrix g) (mat3 0 0 1 0 1 0 (-1) 0 0) /\ os_restr s g = Ret (Some (turn_by 1)).
Proof.
  destruct third_turn as [O M]; destruct (octa_cyclic 4 _ ltac:(lia) O) as (s & E & _ & [I _ _ _ B _]).
  destruct (I 1%Z ltac:(lia)) as (g & G & Og & Mg); exists s, g; split; [exact E|]; split; [exact G|]; split; [exact Og|].
  split; [|apply B; [lia|exact G]].
  eapply meq_trans3; [exact Mg|]; eapply meq_trans3; [apply conj3; [exact M|apply meq_refl3]|].
  assert (A : 2 * PI / 4 * 1 = PI / 2) by field; rewrite A.
  intros i j Hi Hj; unfold conjugate, mmul, mtr, spin; rewrite cos_PI2, sin_PI2.
  mat_entries i j Hi Hj; cbn [sumn mat3 fold_axis Z.eqb Pos.eqb delta cross Nat.eqb]; lra.
Qed.
