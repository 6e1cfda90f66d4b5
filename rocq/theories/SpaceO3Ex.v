(** Concrete subgroups of O(3). *)
From Coq Require Import Reals ZArith Bool List Lia Lra.
From Verif Require Import LibRes LibMat LibTrig FinGroupModel SpecFinGroup SpecGroup ParamModel ParamProofs
  PlanarModel SpecPlanar PlanarProofs SpaceModel SpecSpace SpaceProofs SpaceThms SpaceSub SpaceEx
  SpaceO3Model SpecSpaceO3 SpaceO3Proofs SpaceO3Cone SpaceO3Thms SpaceO3Comb.
Open Scope R_scope.

Definition otilted : oval := (1%Z, tilted).
Lemma otilted_unit : ounit otilted.
Proof. apply ounit_pair; [auto|apply tilted_unit]. Qed.

(** The inverted third of a turn in C_2 x C_3. *)
Lemma cylinder_case : exists s g, o3_subgroup (O3Plane (IBool true) (ABool false) 3) (Some otilted) = Ret s /\
  s3_group s = GCyl (Fin (Cyc 3)) /\ s3_incl s (EC 1 (VF (VC 1))) = Ret g /\
  meq 3 3 (omat g) (conjugate (omat otilted) (mscal (-1) (Rz (2 * PI / 3)))).
Proof.
  destruct (o3_subgroups (O3Plane (IBool true) (ABool false) 3) (Some otilted)) as (s & E & C);
    [cbn; lia|cbn; auto|apply otilted_unit|].
  destruct (sub_incl _ _ _ _ _ _ C (EC 1 (VF (VC 1)))) as (g & I & U & M); [cbn; split; [auto|lia]|].
  exists s, g; split; [exact E|]; split; [apply (sub_group _ _ _ _ _ _ C)|]; split; [exact I|].
  eapply meq_trans3; [exact M|]; apply conj3; [apply meq_refl3|].
  cbn [o3_matrix]; unfold plane_matrix, plane_angle, plane_flip; cbn [ax_flip flips andb plane_group Z.eqb angle_of flip_of axis2].
  replace (2 * PI / 3 * 1 + IZR 0 * 0) with (2 * PI / 3) by ring.
  intros i j Hi Hj; mat_entries i j Hi Hj; unfold inversion, mscal, mid; cbn; ring.
Qed.

(** The mirror of the pyramid of D_2 reflects Y. *)
Lemma cone_case : exists s g, o3_subgroup (O3Cone None 2) None = Ret s /\ s3_group s = GP (Fin (Dih 2)) /\
  s3_incl s (EP (VF (VD 1 0))) = Ret g /\ meq 3 3 (omat g) (mat3 1 0 0 0 (-1) 0 0 0 1).
Proof.
  destruct (o3_subgroups (O3Cone None 2) None) as (s & E & C); [cbn; lia|cbn; auto|exact I|].
  destruct (sub_incl _ _ _ _ _ _ C (EP (VF (VD 1 0)))) as (g & I & U & M); [cbn; lia|].
  exists s, g; split; [exact E|]; split; [apply (sub_group _ _ _ _ _ _ C)|]; split; [exact I|].
  eapply meq_trans3; [exact M|]; cbn [frame o3_matrix]; unfold plane_angle, plane_flip.
  cbn [andb plane_group Z.eqb Pos.eqb angle_of flip_of].
  replace (2 * PI / 2 * 0 + 1 * 0) with 0 by ring.
  intros i j Hi Hj; unfold conjugate, Rz; rewrite cos_0, sin_0.
  mat_entries i j Hi Hj; unfold mtr, mid; cbn; ring.
Qed.

(** The pyramids with mirrors at 0 and 90 degrees, inside the pyramid of D_3 and D_4. *)
Lemma combined_case : exists s1, o3_subgroup (O3Cone None 3) (Some otilted) = Ret s1 /\
  o3_sub_documented (s3_group s1) (DPlane (BDih (Some 2%Z) 1)) /\
  combined (O3Cone None 3) (Some otilted) s1 (DPlane (BDih (Some 2%Z) 1)).
Proof.
  destruct (o3_subgroups (O3Cone None 3) (Some otilted)) as (s1 & E & C); [cbn; lia|cbn; auto|apply otilted_unit|].
  exists s1; split; [exact E|].
  assert (D : o3_sub_documented (s3_group s1) (DPlane (BDih (Some 2%Z) 1))).
  { rewrite (sub_group _ _ _ _ _ _ C); cbn; repeat split; try lia; exists 3%Z; reflexivity. }
  split; [exact D|]; apply combined_iff; [cbn; lia|apply otilted_unit|exact E|exact D|].
  cbn; exists 2%Z; field.
Qed.

Lemma not_combined_case : exists s1, o3_subgroup (O3Cone None 4) None = Ret s1 /\
  o3_sub_documented (s3_group s1) (DPlane (BDih (Some 1%Z) 2)) /\
  ~ combined (O3Cone None 4) None s1 (DPlane (BDih (Some 1%Z) 2)).
Proof.
  destruct (o3_subgroups (O3Cone None 4) None) as (s1 & E & C); [cbn; lia|cbn; auto|exact I|].
  exists s1; split; [exact E|].
  assert (D : o3_sub_documented (s3_group s1) (DPlane (BDih (Some 1%Z) 2))).
  { rewrite (sub_group _ _ _ _ _ _ C); cbn; repeat split; try lia; exists 2%Z; reflexivity. }
  split; [exact D|]; intros K; apply combined_iff in K; [|cbn; lia|exact I|exact E|exact D].
  cbn in K; destruct K as [z Hz]; pose proof PI_RGT_0 as P.
  assert (X : 3 = 4 * IZR z).
  { apply (Rmult_eq_reg_l (PI / 2)); [|lra]; lra. }
  rewrite <- mult_IZR in X; apply eq_IZR in X; lia.
Qed.
