(** Concrete elements of SO(3) and its subgroups. *)
From Coq Require Import Reals ZArith Bool List Lia Lra.
From Verif Require Import LibRes LibMat LibTrig FinGroupModel SpecFinGroup SpecGroup ParamModel ParamProofs
  PlanarModel SpecPlanar PlanarProofs SpaceModel SpecSpace SpaceProofs SpaceTol SpaceThms SpaceSub SpaceComb.
Import ListNotations.
Open Scope R_scope.

(** A rotation around no coordinate axis. *)
Definition tilted : quat := Quat (1 / 2) (1 / 2) (1 / 2) (1 / 2).
Lemma tilted_unit : unit tilted.
Proof. unfold unit, tilted; cbn; lra. Qed.

(** It permutes the axes. *)
Lemma tilted_matrix : meq 3 3 (as_matrix tilted) (mat3 0 0 1 1 0 0 0 1 0).
Proof. intros i j Hi Hj; mat_entries i j Hi Hj; cbn; lra. Qed.

(** The two signs of a quaternion are different values of the same rotation. *)
Lemma tilted_opp : tilted <> qopp tilted /\ meq 3 3 (as_matrix tilted) (as_matrix (qopp tilted)).
Proof.
  split; [|rewrite mat_opp; apply meq_refl3].
  intros E; apply (f_equal qw) in E; cbn in E; lra.
Qed.

(** ** Equal rotations with different hashes *)

(** A turn around Z given by the first entry of its matrix. *)
Definition turn_by (c : R) : quat := Quat 0 0 (sqrt ((1 - c) / 2)) (sqrt ((1 + c) / 2)).

Lemma turn_by_sq : forall c, -1 <= c <= 1 ->
  sqrt ((1 - c) / 2) * sqrt ((1 - c) / 2) = (1 - c) / 2 /\ sqrt ((1 + c) / 2) * sqrt ((1 + c) / 2) = (1 + c) / 2.
Proof. intros c H; split; apply sqrt_sqrt; lra. Qed.

Lemma turn_by_unit : forall c, -1 <= c <= 1 -> unit (turn_by c).
Proof. intros c H; destruct (turn_by_sq c H) as [A B]; unfold unit; cbn; lra. Qed.

Lemma turn_by_entry : forall c, -1 <= c <= 1 -> as_matrix (turn_by c) 0%nat 0%nat = c.
Proof. intros c H; destruct (turn_by_sq c H) as [A B]; cbn; lra. Qed.

Lemma sqrt_close : forall a b, 1 / 5 <= a -> a <= b -> b - a <= 1 / 1000000 ->
  np_isclose (/ 10 ^ 7) (sqrt a) (sqrt b) = true.
Proof.
  intros a b Ha Hab Hd; unfold np_isclose; apply Rleb_true.
  assert (Sa : sqrt a * sqrt a = a) by (apply sqrt_sqrt; lra).
  assert (Sb : sqrt b * sqrt b = b) by (apply sqrt_sqrt; lra).
  assert (La : 2 / 5 <= sqrt a).
  { replace (2 / 5) with (sqrt (4 / 25)); [apply sqrt_le_1; lra|].
    replace (4 / 25) with (2 / 5 * (2 / 5)) by lra; apply sqrt_square; lra. }
  assert (Lab : sqrt a <= sqrt b) by (apply sqrt_le_1; lra).
  rewrite Rabs_left1, (Rabs_right (sqrt b)) by lra.
  assert (K : (sqrt b - sqrt a) * (4 / 5) <= 1 / 1000000).
  { apply Rle_trans with ((sqrt b - sqrt a) * (sqrt b + sqrt a)); [apply Rmult_le_compat_l; lra|lra]. }
  replace (/ 10 ^ 7) with (1 / 10000000) by field; replace (/ 10 ^ 5) with (1 / 100000) by field; lra.
Qed.

(** First entries 0.50005 and 0.500051. *)
Definition c1 : R := 50005 / 100000.
Definition c2 : R := 500051 / 1000000.

Lemma floor_c1 : pyround (c1 * 10 ^ 4) = 5000%Z.
Proof.
  unfold pyround; replace (c1 * 10 ^ 4) with (10001 / 2) by (unfold c1; lra).
  rewrite (floorZ_unique (10001 / 2) 5000) by lra.
  destruct (Rlt_dec (10001 / 2 - 5000) (1 / 2)); [reflexivity|].
  destruct (Rlt_dec (1 / 2) (10001 / 2 - 5000)); [lra|reflexivity].
Qed.
Lemma floor_c2 : pyround (c2 * 10 ^ 4) = 5001%Z.
Proof. apply pyround_near; unfold c2; apply Rabs_def1; lra. Qed.

Lemma hash_differs : exists p q, unit p /\ unit q /\ q_equal p q = Ret true /\
  exists k l, q_hash_key p = Ret k /\ q_hash_key q = Ret l /\ k <> l.
Proof.
  assert (H1 : -1 <= c1 <= 1) by (unfold c1; lra); assert (H2 : -1 <= c2 <= 1) by (unfold c2; lra).
  exists (turn_by c2), (turn_by c1); split; [apply turn_by_unit, H2|]; split; [apply turn_by_unit, H1|].
  split.
  - unfold q_equal; rewrite !to_rot_unit by (apply turn_by_unit; assumption); cbn [bind]; f_equal.
    apply orb_true_iff; left; unfold qallclose; cbn [qx qy qz qw turn_by].
    rewrite np_isclose_refl by apply tol_pos; cbn [andb].
    assert (A : np_isclose (/ 10 ^ 7) (sqrt ((1 - c2) / 2)) (sqrt ((1 - c1) / 2)) = true)
      by (apply sqrt_close; unfold c1, c2; lra).
    rewrite A; cbn [andb].
    assert (B : np_isclose (/ 10 ^ 7) (sqrt ((1 + c1) / 2)) (sqrt ((1 + c2) / 2)) = true)
      by (apply sqrt_close; unfold c1, c2; lra).
    unfold np_isclose in *; apply Rleb_true in B; apply Rleb_true.
    rewrite Rabs_minus_sym.
    assert (S1 : sqrt ((1 + c1) / 2) * sqrt ((1 + c1) / 2) = (1 + c1) / 2) by (apply sqrt_sqrt; unfold c1; lra).
    assert (S2 : sqrt ((1 + c2) / 2) * sqrt ((1 + c2) / 2) = (1 + c2) / 2) by (apply sqrt_sqrt; unfold c2; lra).
    assert (L : 2 / 5 <= sqrt ((1 + c1) / 2)).
    { replace (2 / 5) with (sqrt (4 / 25)); [apply sqrt_le_1; unfold c1; lra|].
      replace (4 / 25) with (2 / 5 * (2 / 5)) by lra; apply sqrt_square; lra. }
    assert (L2 : sqrt ((1 + c1) / 2) <= sqrt ((1 + c2) / 2)) by (apply sqrt_le_1; unfold c1, c2; lra).
    set (x := sqrt ((1 + c1) / 2)) in *; set (y := sqrt ((1 + c2) / 2)) in *.
    assert (K : (y - x) * (4 / 5) <= 1 / 1000000).
    { apply Rle_trans with ((y - x) * (y + x)); [apply Rmult_le_compat_l; lra|unfold c1, c2 in *; lra]. }
    rewrite Rabs_left1, (Rabs_right x) by lra.
    replace (/ 10 ^ 7) with (1 / 10000000) by field; replace (/ 10 ^ 5) with (1 / 100000) by field; lra.
  - unfold q_hash_key; rewrite !to_rot_unit by (apply turn_by_unit; assumption); cbn [bind].
    eexists; eexists; split; [reflexivity|]; split; [reflexivity|].
    intros E; cbn [flat_map map app] in E; apply (f_equal (hd 0)) in E; cbn [hd] in E.
    unfold around4 in E; rewrite !turn_by_entry in E by assumption; rewrite floor_c1, floor_c2 in E; lra.
Qed.

(** ** Subgroups *)

(** The third of a turn in C_3, seen from the tilted frame, turns around the
    third row of the matrix of the frame. *)
Lemma c3_case : exists s g, so3_subgroup (S3Plane (FBool false) 3) tilted = Ret s /\
  s3_incl s (EP (VF (VC 1))) = Ret g /\ unit g /\
  meq 3 3 (as_matrix g) (conjugate (as_matrix tilted) (Rz (2 * PI / 3))).
Proof.
  destruct (so3_subgroup_exists (S3Plane (FBool false) 3) tilted ltac:(cbn; lia) tilted_unit) as [s E].
  pose proof (so3_subgroup_correct (S3Plane (FBool false) 3) tilted s ltac:(cbn; lia) tilted_unit E) as C.
  destruct (sub_incl _ _ _ _ _ _ C (EP (VF (VC 1)))) as (g & I & U & M); [cbn; lia|].
  exists s, g; repeat split; try assumption.
  eapply meq_trans3; [exact M|]; apply conj3; [apply meq_refl3|].
  cbn [so3_matrix]; unfold plane_matrix, plane_angle, plane_flip; cbn [flips andb plane_group Z.eqb angle_of flip_of axis2].
  replace (2 * PI / 3 * 1 + IZR 0 * 0) with (2 * PI / 3) by ring.
  intros i j Hi Hj; mat_entries i j Hi Hj; cbn; ring.
Qed.

(** A flip of D_2 about the axis at 45 degrees exchanges X and Y. *)
Lemma flip_case : exists s g, so3_subgroup (S3Plane (FFloat (PI / 2)) 2) so3_id = Ret s /\
  s3_incl s (EP (VF (VD 1 0))) = Ret g /\ meq 3 3 (as_matrix g) (mat3 0 1 0 1 0 0 0 0 (-1)).
Proof.
  destruct (so3_subgroup_exists (S3Plane (FFloat (PI / 2)) 2) so3_id ltac:(cbn; lia) unit_id) as [s E].
  pose proof (so3_subgroup_correct (S3Plane (FFloat (PI / 2)) 2) so3_id s ltac:(cbn; lia) unit_id E) as C.
  destruct (sub_incl _ _ _ _ _ _ C (EP (VF (VD 1 0)))) as (g & I & U & M); [cbn; lia|].
  exists s, g; repeat split; try assumption.
  eapply meq_trans3; [exact M|].
  eapply meq_trans3; [apply conj3; [apply mat_id|apply meq_refl3]|].
  cbn [so3_matrix]; unfold plane_matrix, plane_angle, plane_flip; cbn [flips andb plane_group Z.eqb Pos.eqb angle_of flip_of axis2].
  replace (2 * PI / 2 * 0 + 1 * (PI / 2)) with (PI / 2) by ring.
  intros i j Hi Hj; unfold conjugate, Rz; rewrite cos_PI2, sin_PI2.
  mat_entries i j Hi Hj; unfold mtr; cbn; ring.
Qed.

(** D_2 inside D_4 inside a tilted SO(3). *)
Lemma combine_case : exists s1 id adj, so3_subgroup (S3Plane (FBool true) 4) tilted = Ret s1 /\
  sub_documented (s3_group s1) (BDih (Some 1%Z) 2) /\
  so3_combine_subgroups (S3Plane (FBool true) 4) tilted (BDih (Some 1%Z) 2) = Ret (id, adj) /\
  id = S3Plane (FFloat (1 * 2 * PI / 4)) 2 /\ adj = tilted.
Proof.
  destruct (so3_subgroup_exists (S3Plane (FBool true) 4) tilted ltac:(cbn; lia) tilted_unit) as [s E].
  pose proof (so3_subgroup_correct (S3Plane (FBool true) 4) tilted s ltac:(cbn; lia) tilted_unit E) as C.
  exists s, (S3Plane (FFloat (1 * 2 * PI / 4)) 2), tilted; split; [exact E|].
  rewrite (sub_group _ _ _ _ _ _ C); cbn [so3_group_of flips plane_group Z.eqb Pos.eqb sub_documented].
  split; [cbn; repeat split; try lia; exists 2%Z; reflexivity|]; split; [reflexivity|]; split; reflexivity.
Qed.
