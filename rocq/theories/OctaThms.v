(** The octahedral group as a whole: group laws, its other subgroups, and what its
    cyclic subgroups leave in place. *)
From Coq Require Import Reals ZArith Bool List Lia Lra.
From Verif Require Import LibRes LibMat LibTrig FinGroupModel SpecFinGroup SpecGroup ParamModel ParamProofs PlanarModel SpecPlanar
  PlanarProofs IrrepModel SpaceModel SpecSpace SpaceProofs SpaceThms SpaceTol SpaceSub SphereModel SphereProofs OctaModel SpecOcta
  OctaProofs OctaSub.
Import ListNotations.
Open Scope R_scope.

Lemma octa_group : is_group octahedral octa_mul octa_inv so3_id.
Proof.
  constructor.
  - apply octahedral_id.
  - intros a b Ha Hb; rewrite octa_mul_ok by assumption; eexists; split; [reflexivity|apply octahedral_mul; assumption].
  - intros a Ha; rewrite octa_inv_ok by assumption; eexists; split; [reflexivity|apply octahedral_conj; assumption].
  - intros a b c ab bc Ha Hb Hc E1 E2; rewrite octa_mul_ok in E1, E2 by assumption; apply Ret_inj in E1, E2; subst.
    rewrite !octa_mul_ok by (try apply octahedral_mul; assumption); f_equal; apply qmul_assoc.
  - intros a Ha; rewrite octa_mul_ok by (try apply octahedral_id; assumption); f_equal; apply qmul_id_l.
  - intros a Ha; rewrite octa_mul_ok by (try apply octahedral_id; assumption); f_equal; apply qmul_id_r.
  - intros a b Ha E; rewrite octa_inv_ok in E by assumption; apply Ret_inj in E; subst.
    rewrite octa_mul_ok by (try apply octahedral_conj; assumption); f_equal; apply qmul_conj_l, Ha.
  - intros a b Ha E; rewrite octa_inv_ok in E by assumption; apply Ret_inj in E; subst.
    rewrite octa_mul_ok by (try apply octahedral_conj; assumption); f_equal; apply qmul_conj_r, Ha.
Qed.

Lemma octa_list : length octa_elements = 24%nat /\ Forall octahedral octa_elements /\
  (forall n m, (n < 24)%nat -> (m < 24)%nat ->
     same_rotation (nth n octa_elements so3_id) (nth m octa_elements so3_id) -> n = m) /\
  (forall q, octahedral q -> exists p, In p octa_elements /\ same_rotation q p).
Proof.
  split; [reflexivity|split; [exact elements_octahedral|split; [exact elements_distinct|exact elements_complete]]].
Qed.

Lemma octa_check : (forall q, octahedral q -> octa_is_element q = true) /\
  (forall q, octa_is_element q = true -> exists r p, to_rot q = Ret r /\ In p octa_elements /\
    forall i j, (i < 3)%nat -> (j < 3)%nat -> Rabs (as_matrix r i j - as_matrix p i j) <= / 10 ^ 4).
Proof. split; [exact octa_accepts|exact octa_admits]. Qed.

(** ** The trivial subgroup *)

Lemma spin_0 : forall u, meq 3 3 (spin u 0) mid.
Proof. intros u i j Hi Hj; unfold spin, delta, mid; rewrite cos_0, sin_0; destruct (Nat.eqb i j); ring. Qed.

Lemma conj_id : forall A, orth3 A -> meq 3 3 (conjugate A mid) mid.
Proof.
  intros A O; unfold conjugate; eapply meq_trans3; [apply mmul3; [apply meq_refl3|apply mmul3_id_l]|]; apply O.
Qed.

Lemma trivial_correct : forall adj, octahedral adj ->
  cyclic_subgroup (as_matrix adj) 1 (os_incl (cyclic_sub 1 trivial_parent trivial_child))
    (os_restr (cyclic_sub 1 trivial_parent trivial_child)).
Proof.
  intros adj Ha; constructor; cbn [cyclic_sub os_incl os_restr turn_by]; unfold trivial_parent, trivial_child.
  - intros r Hr; exists so3_id; split; [reflexivity|]; split; [apply octahedral_id|].
    assert (r = 0)%Z as -> by lia; rewrite Rmult_0_r; eapply meq_trans3; [apply mat_id|].
    apply meq_sym3; eapply meq_trans3; [|apply (conj_id (as_matrix adj)), mat_orth3, Ha].
    apply conj3; [apply meq_refl3|apply spin_0].
  - intros r s g h k Hr Hs G H K; apply Ret_inj in G, H, K; subst.
    eapply meq_trans3; [apply mat_id|]; apply meq_sym3; eapply meq_trans3; [apply mmul3; apply mat_id|apply mmul3_id_l].
  - intros; lia.
  - intros g Hg; destruct (q_equal_total g so3_id (proj1 Hg) unit_id) as [b ->]; cbn; eauto.
  - intros r g Hr G; apply Ret_inj in G; subst g; rewrite q_equal_complete by (try apply unit_id; apply meq_refl3).
    assert (r = 0)%Z as -> by lia; reflexivity.
  - intros g h Hg E; destruct (q_equal g so3_id) as [|b] eqn:Q; [discriminate E|]; destruct b; [|discriminate E].
    cbn in E; assert (h = EP (VF (VC 0))) as -> by congruence.
    exists 0%Z, so3_id; split; [lia|]; split; [reflexivity|]; split; [reflexivity|].
    pose proof (q_equal_sound g so3_id (proj1 Hg) unit_id Q) as B.
    apply close_same; [exact Hg|apply octahedral_id|]; intros i j Hi Hj; eapply Rle_lt_trans; [apply B; assumption|].
    replace (/ 10 ^ 4) with (1 / 10000) by field; lra.
Qed.

Lemma octa_cyclic : forall N adj, (1 <= N <= 4)%Z -> octahedral adj ->
  exists s, octa_subgroup (OcPlane false N) adj = Ret s /\ os_order s = Some N /\
    cyclic_subgroup (as_matrix adj) N (os_incl s) (os_restr s).
Proof.
  intros N adj HN Ha; destruct (order_documented N HN) as [->|O].
  - exists (cyclic_sub 1 trivial_parent trivial_child); split; [reflexivity|]; split; [reflexivity|].
    apply trivial_correct, Ha.
  - rewrite cyclic_eq by exact O; eexists; split; [reflexivity|]; split; [reflexivity|]; apply cyclic_correct; assumption.
Qed.

(** ** The group itself *)

Lemma octa_self : forall adj, octahedral adj ->
  exists s, octa_subgroup OcSelf adj = Ret s /\ os_order s = None /\
    forall q, octahedral q -> exists g, os_incl s (EQ q) = Ret g /\ octahedral g /\
      meq 3 3 (as_matrix g) (conjugate (as_matrix adj) (as_matrix q)) /\ os_restr s g = Ret (Some (EQ q)).
Proof.
  intros adj Ha; unfold octa_subgroup, octa_process; cbn [bind fst snd]; unfold octa_subgroup_raw.
  rewrite octa_inv_ok by exact Ha; cbn [bind]; eexists; split; [reflexivity|]; split; [reflexivity|].
  cbn [os_incl os_restr]; intros q Hq.
  destruct (octa_to_adj_ok (qconj adj) q (octahedral_conj adj Ha) Hq) as [E O]; rewrite qconj_conj in E, O.
  exists (qmul (qmul (qconj adj) q) adj); split; [exact E|]; split; [exact O|]; split; [apply conj_mat|].
  destruct (octa_to_adj_ok adj _ Ha O) as [-> _]; cbn [bind opt_map]; rewrite there_and_back by apply Ha; reflexivity.
Qed.

(** ** The restriction and the sign of the quaternion *)

Lemma restriction_sign : forall N adj s r g, order N -> octahedral adj -> octa_subgroup (OcPlane false N) adj = Ret s ->
  (0 < r < N)%Z -> os_incl s (turn_by r) = Ret g ->
  octahedral (qopp g) /\ same_rotation (qopp g) g /\ q_equal (qopp g) g = Ret true /\ os_restr s (qopp g) = Ret None.
Proof.
  intros N adj s r g HN Ha E Hr G; rewrite cyclic_eq in E by exact HN; apply Ret_inj in E; subst s.
  rewrite incl_sub in G by (try assumption; lia); apply Ret_inj in G; subst g.
  destruct (incl_eq adj N r HN Ha ltac:(lia)) as [_ O].
  split; [apply octahedral_opp, O|]; split; [unfold same_rotation; rewrite mat_opp; apply meq_refl3|].
  split; [apply q_equal_complete; [apply unit_opp, O|apply O|rewrite mat_opp; apply meq_refl3]|].
  cbn [cyclic_sub os_restr]; rewrite restr_opp by assumption; reflexivity.
Qed.

(** A quarter turn backwards around Z, as the group lists it. *)
Lemma restriction_listed : exists s g h, octa_subgroup (OcPlane false 4) so3_id = Ret s /\
  nth_error octa_elements 15 = Some g /\ octahedral g /\
  os_incl s (turn_by 3) = Ret h /\ same_rotation g h /\ os_restr s g = Ret None.
Proof.
  assert (O4 : order 4) by (unfold order; auto).
  rewrite cyclic_eq by exact O4.
  assert (H15 : nth_error octa_elements 15 = Some (Quat 0 0 (- (sqrt 2 / 2)) (sqrt 2 / 2))) by reflexivity.
  assert (H14 : nth_error octa_elements 15 = Some (nth 15 octa_elements so3_id)) by reflexivity.
  assert (Og : octahedral (nth 15 octa_elements so3_id)).
  { apply (proj1 (Forall_forall _ _) elements_octahedral); apply nth_In; cbn; lia. }
  pose proof (incl_sub so3_id 4 3 O4 octahedral_id ltac:(lia)) as I.
  eexists; eexists; eexists; split; [reflexivity|]; split; [exact H14|]; split; [exact Og|]; split; [exact I|].
  assert (Q : qopp (qmul (qmul (qconj so3_id) (spun (axis_for 4) (ang 4 3))) so3_id) = nth 15 octa_elements so3_id).
  { assert (H : nth 15 octa_elements so3_id = Quat 0 0 (- (sqrt 2 / 2)) (sqrt 2 / 2)) by congruence; rewrite H.
    assert (C : qconj so3_id = so3_id) by (apply quat_eq; cbn; ring); rewrite C, qmul_id_l, qmul_id_r.
    assert (A : ang 4 3 / 2 = 3 * (PI / 4)) by (unfold ang; field).
    assert (S2 : 0 < sqrt 2) by (apply sqrt_lt_R0; lra).
    assert (R : 1 / sqrt 2 = sqrt 2 / 2).
    { apply Rmult_eq_reg_r with (sqrt 2); [|lra]; replace (sqrt 2 / 2 * sqrt 2) with (sqrt 2 * sqrt 2 / 2) by field.
      rewrite sqrt_sqrt by lra; field; lra. }
    unfold spun, qopp; rewrite A, sin_3PI4, cos_3PI4.
    replace (-1 / sqrt 2) with (- (1 / sqrt 2)) by (field; lra); rewrite R.
    apply quat_eq; cbn [axis_for Z.eqb Pos.eqb z_axis ax ay az fst snd qx qy qz qw]; ring. }
  rewrite <- Q; split.
  - unfold same_rotation; rewrite mat_opp; apply meq_refl3.
  - cbn [cyclic_sub os_restr]; rewrite restr_opp by (try assumption; try apply octahedral_id; lia); reflexivity.
Qed.

(** ** What the subgroups leave in place *)

Lemma fixes_same : forall g h p, same_rotation g h -> fixes h p -> fixes g p.
Proof.
  intros g h p S F i Hi; transitivity (mvec 3 (as_matrix h) p i); [|apply F, Hi].
  unfold mvec; apply sumn_ext; intros j Hj; rewrite S by assumption; reflexivity.
Qed.

Lemma incl_id_mat : forall N r, meq 3 3 (as_matrix (qmul (qmul (qconj so3_id) (spun (axis_for N) (ang N r))) so3_id))
  (spin (fold_axis N) (ang N r)).
Proof.
  intros N r; assert (C : qconj so3_id = so3_id) by (apply quat_eq; cbn; ring); rewrite C, qmul_id_l, qmul_id_r.
  apply spun_fold.
Qed.

Lemma face_stabiliser : forall s, octa_subgroup cube_faces_id so3_id = Ret s -> forall g, octahedral g ->
  (fixes g top_face <-> exists r k, (0 <= r < 4)%Z /\ os_incl s (turn_by r) = Ret k /\ same_rotation g k).
Proof.
  assert (O4 : order 4) by (unfold order; auto).
  intros s E g Hg; unfold cube_faces_id in E; rewrite cyclic_eq in E by exact O4; apply Ret_inj in E; subst s; split.
  - intros F.
    assert (M02 : as_matrix g 0%nat 2%nat = 0)
      by (specialize (F 0%nat ltac:(lia)); unfold mvec, top_face, delta in F; cbn [sumn Nat.eqb] in F; lra).
    assert (M12 : as_matrix g 1%nat 2%nat = 0)
      by (specialize (F 1%nat ltac:(lia)); unfold mvec, top_face, delta in F; cbn [sumn Nat.eqb] in F; lra).
    assert (M22 : as_matrix g 2%nat 2%nat = 1)
      by (specialize (F 2%nat ltac:(lia)); unfold mvec, top_face, delta in F; cbn [sumn Nat.eqb] in F; lra).
    pose proof (mat_rot9 g (proj1 Hg)) as Q; rewrite M02, M12, M22 in Q; destruct Q.
    assert (Z20 : as_matrix g 2%nat 0%nat = 0 /\ as_matrix g 2%nat 1%nat = 0).
    { destruct (sum_sq_0 (as_matrix g 2%nat 0%nat) (as_matrix g 2%nat 1%nat) 0 0) as (A & B & _); [lra|]; split; assumption. }
    destruct Z20 as [M20 M21]; rewrite M20, M21 in *.
    assert (M11 : as_matrix g 1%nat 1%nat = as_matrix g 0%nat 0%nat) by lra.
    assert (M10 : as_matrix g 1%nat 0%nat = - as_matrix g 0%nat 1%nat) by lra.
    pose proof (proj2 Hg 0%nat 0%nat ltac:(lia) ltac:(lia)) as A; pose proof (proj2 Hg 0%nat 1%nat ltac:(lia) ltac:(lia)) as B.
    assert (K : exists r, (0 <= r < 4)%Z /\ cos (ang 4 r) = as_matrix g 0%nat 0%nat /\ sin (ang 4 r) = - as_matrix g 0%nat 1%nat).
    { unfold ang; destruct A as [A|[A|A]], B as [B|[B|B]]; rewrite A, B in r00 |- *; try (exfalso; lra).
      - exists 2%Z; split; [lia|]; replace (2 * PI / 4 * 2) with PI by field; rewrite cos_PI, sin_PI; lra.
      - exists 1%Z; split; [lia|]; replace (2 * PI / 4 * 1) with (PI / 2) by field; rewrite cos_PI2, sin_PI2; lra.
      - exists 3%Z; split; [lia|]; replace (2 * PI / 4 * 3) with (3 * (PI / 2)) by field; rewrite cos_3PI2, sin_3PI2; lra.
      - exists 0%Z; split; [lia|]; rewrite Rmult_0_r, cos_0, sin_0; lra. }
    destruct K as (r & Hr & C & S); exists r; eexists; split; [exact Hr|]; split; [apply incl_sub; try assumption; apply octahedral_id|].
    eapply meq_trans3; [|apply meq_sym3, incl_id_mat]; intros i j Hi Hj; unfold spin; rewrite C, S.
    mat_entries i j Hi Hj; unfold fold_axis; cbn [Z.eqb Pos.eqb delta cross Nat.eqb];
      rewrite ?M02, ?M12, ?M22, ?M20, ?M21, ?M11, ?M10; ring.
  - intros (r & k & Hr & G & S); rewrite incl_sub in G by (try assumption; apply octahedral_id); apply Ret_inj in G; subst k.
    apply (fixes_same _ _ _ S); intros i Hi; unfold mvec; rewrite (sumn_ext 3 _ (fun j => spin (fold_axis 4) (ang 4 r) i j * top_face j))
      by (intros j Hj; rewrite incl_id_mat by assumption; reflexivity).
    unfold spin, fold_axis, top_face; cbn [Z.eqb Pos.eqb sumn]; destruct i as [|[|[|i]]]; [| | |lia]; cbn [delta cross Nat.eqb]; ring.
Qed.

Lemma vertex_stabiliser : forall s, octa_subgroup cube_vertices_id so3_id = Ret s -> forall g, octahedral g ->
  (fixes g corner <-> exists r k, (0 <= r < 3)%Z /\ os_incl s (turn_by r) = Ret k /\ same_rotation g k).
Proof.
  assert (O3 : order 3) by (unfold order; auto).
  intros s E g Hg; unfold cube_vertices_id in E; rewrite cyclic_eq in E by exact O3; apply Ret_inj in E; subst s; split.
  - intros F.
    assert (Rw : forall i, (i < 3)%nat -> exists l, (l < 3)%nat /\ forall k, (k < 3)%nat -> as_matrix g i k = if Nat.eqb k l then 1 else 0).
    { intros i Hi; destruct (octahedral_row g i Hg Hi) as (l & x & Hl & Hx & R); exists l; split; [exact Hl|].
      specialize (F i Hi); unfold mvec, corner in F; cbn [sumn] in F; rewrite !R in F by lia.
      assert (x = 1) as -> by (destruct l as [|[|[|l]]]; [| | |lia]; cbn [Nat.eqb] in F; lra); exact R. }
    destruct (Rw 0%nat ltac:(lia)) as (l & Hl & R0); destruct (Rw 1%nat ltac:(lia)) as (l' & Hl' & R1);
      destruct (Rw 2%nat ltac:(lia)) as (l'' & Hl'' & R2).
    pose proof (mat_rot9 g (proj1 Hg)) as Q; rewrite !R0, !R1, !R2 in Q by lia; destruct Q.
    pose proof sqrt3_sq as Q3; pose proof sqrt3_half as Qh; pose proof PI_RGT_0 as PP.
    assert (K : exists r, (0 <= r < 3)%Z /\ meq 3 3 (as_matrix g) (spin (fold_axis 3) (ang 3 r))).
    { destruct l as [|[|[|l]]]; [| | |lia]; (destruct l' as [|[|[|l']]]; [| | |lia]); (destruct l'' as [|[|[|l'']]]; [| | |lia]);
        cbn [Nat.eqb] in *; try (exfalso; lra).
      - exists 0%Z; split; [lia|]; unfold ang; rewrite Rmult_0_r; eapply meq_trans3; [|apply meq_sym3, spin_0].
        intros i j Hi Hj; destruct i as [|[|[|i]]]; [rewrite R0 by exact Hj|rewrite R1 by exact Hj|rewrite R2 by exact Hj|lia];
          destruct j as [|[|[|j]]]; try lia; reflexivity.
      - exists 2%Z; split; [lia|]; unfold ang; replace (2 * PI / 3 * 2) with (- (2 * (PI / 3)) + 2 * PI * 1) by field.
        intros i j Hi Hj; unfold spin, fold_axis; rewrite cos_2PI_Z, sin_2PI_Z, cos_neg, sin_neg, cos_2PI3, sin_2PI3.
        destruct i as [|[|[|i]]]; [rewrite R0 by exact Hj|rewrite R1 by exact Hj|rewrite R2 by exact Hj|lia];
          (destruct j as [|[|[|j]]]; [| | |lia]); cbn [Nat.eqb delta cross Z.eqb Pos.eqb]; lra.
      - exists 1%Z; split; [lia|]; unfold ang; replace (2 * PI / 3 * 1) with (2 * (PI / 3)) by field.
        intros i j Hi Hj; unfold spin, fold_axis; rewrite cos_2PI3, sin_2PI3.
        destruct i as [|[|[|i]]]; [rewrite R0 by exact Hj|rewrite R1 by exact Hj|rewrite R2 by exact Hj|lia];
          (destruct j as [|[|[|j]]]; [| | |lia]); cbn [Nat.eqb delta cross Z.eqb Pos.eqb]; lra. }
    destruct K as (r & Hr & M); exists r; eexists; split; [exact Hr|]; split; [apply incl_sub; try assumption; apply octahedral_id|].
    eapply meq_trans3; [exact M|apply meq_sym3, incl_id_mat].
  - intros (r & k & Hr & G & S); rewrite incl_sub in G by (try assumption; apply octahedral_id); apply Ret_inj in G; subst k.
    apply (fixes_same _ _ _ S); intros i Hi; unfold mvec; rewrite (sumn_ext 3 _ (fun j => spin (fold_axis 3) (ang 3 r) i j * corner j))
      by (intros j Hj; rewrite incl_id_mat by assumption; reflexivity).
    pose proof sqrt3_sq as Q.
    assert (Q' : cos (ang 3 r) * (/ sqrt 3 * / sqrt 3) = cos (ang 3 r) * (1 / 3)) by (rewrite Q; reflexivity).
    unfold spin, fold_axis, corner; cbn [Z.eqb Pos.eqb sumn]; destruct i as [|[|[|i]]]; [| | |lia]; cbn [delta cross Nat.eqb]; lra.
Qed.

Lemma change_axis_eq : change_axis = Quat (1 / 2) (1 / 2) (- (1 / 2)) (1 / 2).
Proof.
  unfold change_axis; replace (1 * 1 + 1 * 1 + -1 * -1) with 3 by ring; rewrite sin_PI3, cos_PI3.
  assert (S3 : 0 < sqrt 3) by (apply sqrt_lt_R0; lra); apply quat_eq; cbn [qx qy qz qw]; try field; lra.
Qed.

Lemma change_axis_octahedral : octahedral change_axis.
Proof.
  rewrite change_axis_eq; apply (proj1 (Forall_forall _ _) elements_octahedral).
  change (In (nth 6 octa_elements so3_id) octa_elements); apply nth_In; cbn; lia.
Qed.

(** The subgroup (True, 1): the half turn around X. *)
Lemma edge_subgroup : exists s g, octa_subgroup cube_edges_id so3_id = Ret s /\ os_order s = Some 2%Z /\
  os_incl s (turn_by 1) = Ret g /\ octahedral g /\ meq 3 3 (as_matrix g) (mat3 1 0 0 0 (-1) 0 0 0 (-1)).
Proof.
  assert (O2 : order 2) by (unfold order; auto).
  assert (E : octa_subgroup cube_edges_id so3_id = octa_subgroup (OcPlane false 2) change_axis).
  { unfold octa_subgroup, octa_process, cube_edges_id; cbn [Z.eqb Pos.eqb orb andb assert_ bind fst snd].
    rewrite octa_element_ok by apply change_axis_octahedral; cbn [bind].
    rewrite octa_mul_ok by (apply change_axis_octahedral || apply octahedral_id); cbn [bind fst snd]; rewrite qmul_id_r; reflexivity. }
  rewrite E, cyclic_eq by exact O2.
  eexists; eexists; split; [reflexivity|]; split; [reflexivity|].
  split; [apply incl_sub; [exact O2|apply change_axis_octahedral|lia]|].
  split; [apply incl_eq; [exact O2|apply change_axis_octahedral|lia]|].
  rewrite change_axis_eq; unfold spun, ang; replace (2 * PI / 2 * 1 / 2) with (PI / 2) by field; rewrite sin_PI2, cos_PI2.
  intros i j Hi Hj; mat_entries i j Hi Hj; cbn [as_matrix mat3 qmul qconj axis_for Z.eqb Pos.eqb z_axis ax ay az fst snd qx qy qz qw]; lra.
Qed.


Ltac through p n T :=
  solve [apply (T n p); [lia|lia|]; intros i Hi; destruct i as [|[|[|i]]]; [| | |exfalso; lia];
         unfold mvec, table_mat; cbn [sumn nth octa_tables Nat.mul Nat.add]; lra].

Lemma edge_moved : exists s g, octa_subgroup cube_edges_id so3_id = Ret s /\ os_incl s (turn_by 1) = Ret g /\ octahedral g /\
  (forall p, edge p -> ~ fixes g p) /\
  forall p, edge p -> exists h, octahedral h /\ fixes h p /\ ~ same_rotation h so3_id.
Proof.
  destruct edge_subgroup as (s & g & E & _ & G & O & M); exists s, g; split; [exact E|]; split; [exact G|]; split; [exact O|]; split.
  - intros p Hp F.
    pose proof (F 1%nat ltac:(lia)) as F1; pose proof (F 2%nat ltac:(lia)) as F2.
    unfold mvec in F1, F2; cbn [sumn] in F1, F2; rewrite !M in F1, F2 by lia; cbn [mat3] in F1, F2.
    unfold edge, is_sign in Hp; decompose [or and] Hp; lra.
  - assert (T : forall n p, (n < 24)%nat -> n <> 3%nat ->
       (forall i, (i < 3)%nat -> mvec 3 (table_mat (nth n octa_tables [])) p i = p i) ->
       exists h, octahedral h /\ fixes h p /\ ~ same_rotation h so3_id).
    { intros n p Hn N3 F; exists (nth n octa_elements so3_id); split.
      - apply (proj1 (Forall_forall _ _) elements_octahedral), nth_In; exact Hn.
      - split.
        + intros i Hi; rewrite <- (F i Hi); unfold mvec; apply sumn_ext; intros j Hj; rewrite octa_table by assumption; reflexivity.
        + intros S; apply N3; apply elements_distinct; [exact Hn|lia|exact S]. }
    intros p Hp; unfold edge, is_sign in Hp; decompose [or and] Hp; clear Hp;
      first [through p 18%nat T|through p 19%nat T|through p 20%nat T|through p 21%nat T|through p 22%nat T|through p 23%nat T].
Qed.

(** ** Documented, but not there *)

Lemma octa_missing : forall adj, octa_subgroup OcTetra adj = Raise /\
  forall N, (2 <= N <= 4)%Z -> octa_subgroup (OcPlane true N) adj = Raise.
Proof.
  intros adj; split; [reflexivity|]; intros N H; assert (N = 2 \/ N = 3 \/ N = 4)%Z as [->|[->| ->]] by lia; reflexivity.
Qed.

(** The irreps into which a representation restricts to the trivial group. *)
Lemma trivial_irreps : forall size, (0 < size)%nat ->
  exists k, In k (snd (octa_restrict_trivial size)) /\ cn_irrep 1 k = Raise.
Proof.
  intros [|size] H; [lia|]; exists 1%Z; split; [left; reflexivity|reflexivity].
Qed.
