(** Every documented subgroup of O(3). *)
From Coq Require Import Reals ZArith Bool List Lia Lra.
From Verif Require Import LibRes LibMat LibTrig FinGroupModel SpecFinGroup SpecGroup ParamModel ParamProofs
  PlanarModel SpecPlanar PlanarProofs SpaceModel SpecSpace SpaceProofs SpaceTol SpaceThms SpaceSub SpaceO3Model SpecSpaceO3
  SpaceO3Proofs SpaceO3Cone.
Import ListNotations.
Open Scope R_scope.

(** ** Ids after processing *)

Definition pid_ok (id : o3pid) : Prop :=
  match id with
  | P3Full _ => True
  | P3Plane (IBool _) b N => (N = -1 \/ 0 < N)%Z /\ ~ (b = true /\ N = 1%Z)
  | P3Plane (IInt _) _ _ => False
  | P3Cone N => (N = -1 \/ 0 < N)%Z
  end.

Lemma plain_plane : forall b N v, ~ (b = true /\ N = 1%Z) ->
  meq 3 3 (base_matrix (plane_group b N) v) (plane_matrix (FBool b) N v).
Proof.
  intros b N v H; unfold plane_matrix, base_matrix, plane_angle, plane_flip; cbn [flips axis2].
  replace (b && (N =? 1)%Z) with false.
  - rewrite Rmult_0_r, Rplus_0_r; apply meq_refl3.
  - symmetry; destruct b; [|reflexivity]; cbn [andb]; apply Z.eqb_neq; intros ->; apply H; auto.
Qed.

Lemma scal3 : forall c A B, meq 3 3 A B -> meq 3 3 (mscal c A) (mscal c B).
Proof. intros c A B E i j Hi Hj; unfold mscal; rewrite (E i j Hi Hj); reflexivity. Qed.
Lemma inversion_mul : forall r A, meq 3 3 (mmul 3 (inversion r) A) (mscal (osign r) A).
Proof. intros r A i j Hi Hj; unfold inversion; fold (osign r); mat_entries i j Hi Hj; unfold mmul, mscal, mid; cbn; ring. Qed.

(** Two descriptions of the same matrices. *)
Lemma rematrix : forall A G M M' s, space_subgroup ounit omat A G M s ->
  (forall h, smember G h -> meq 3 3 (M h) (M' h)) -> space_subgroup ounit omat A G M' s.
Proof.
  intros A G M M' s C E; apply (reframe ounit omat _ _ _ _ _ _ C); intros h Hh; apply conj3; [apply meq_refl3|apply E; exact Hh].
Qed.

Lemma pid_correct : forall id adj, pid_ok id -> ounit adj ->
  exists s, o3_subgroup' id adj = Ret s /\
    space_subgroup ounit omat (omat adj) (o3_group_of (of_pid id)) (o3_matrix (of_pid id)) s.
Proof.
  intros [inv|[inv|?] b N|N] adj H Ha; cbn [pid_ok] in H; try contradiction.
  - destruct inv; cbn [o3_subgroup' of_pid o3_group_of].
    + rewrite o3_inv_unit by exact Ha; eexists; split; [reflexivity|apply osub_o3; exact Ha].
    + eexists; split; [reflexivity|apply osub_so3; exact Ha].
  - destruct H as [D H]; unfold o3_subgroup'; cbn [is_true is_false]; cbv zeta.
    destruct inv; cbn [negb of_pid o3_group_of o3_matrix ax_flip flips].
    + destruct b; cbn [negb andb].
      * assert (N1 : N <> 1%Z) by (intros ->; apply H; auto).
        exists {| s3_group := GCyl (plane_group true N); s3_incl := fullcyl_to_o3 adj (plane_group true N);
                  s3_restr := o3_to_fullcyl adj (plane_group true N) |}; split.
        { unfold plane_group; destruct (Z.eqb_spec N (-1)); [reflexivity|].
          destruct (Z.eqb_spec N 1); [contradiction|]; destruct (Z.ltb_spec 1 N); [reflexivity|lia]. }
        apply (rematrix _ _ _ _ _ (osub_fullcyl _ adj (dihedral_documented N D N1) Ha)).
        intros [?|?|?|i v] Hv; cbn in Hv; try contradiction; cbn [cyl_of].
        eapply meq_trans3; [apply scal3, plain_plane; exact H|apply meq_sym3, inversion_mul].
      * destruct (Z.eqb_spec N 1) as [->|N1].
        { eexists; split; [reflexivity|]; apply (rematrix _ _ _ _ _ (osub_inv _ (omat_orth adj Ha))).
          intros h Hh; destruct (c2_cases h Hh) as (r & Hr & ->); apply meq_refl3. }
        exists {| s3_group := GCyl (plane_group false N); s3_incl := cyl_to_o3 adj (plane_group false N);
                  s3_restr := o3_to_cyl adj (plane_group false N) |}; split.
        { unfold plane_group; destruct (Z.eqb_spec N (-1)); [reflexivity|].
          destruct (Z.ltb_spec 0 N); [reflexivity|lia]. }
        apply (rematrix _ _ _ _ _ (osub_cyl _ adj (cyclic_documented N D) Ha)).
        intros [?|?|?|i v] Hv; cbn in Hv; try contradiction; cbn [cyl_of].
        eapply meq_trans3; [apply scal3, plain_plane; exact H|apply meq_sym3, inversion_mul].
    + destruct b; cbn [negb andb].
      * assert (N1 : N <> 1%Z) by (intros ->; apply H; auto).
        exists {| s3_group := GP (plane_group true N); s3_incl := dih_to_o3 adj (plane_group true N);
                  s3_restr := o3_to_dih adj (plane_group true N) |}; split.
        { unfold plane_group; destruct (Z.eqb_spec N (-1)); [reflexivity|].
          destruct (Z.eqb_spec N 1); [contradiction|]; destruct (Z.ltb_spec 1 N); [reflexivity|lia]. }
        apply (rematrix _ _ _ _ _ (osub_dih _ adj (dihedral_documented N D N1) Ha)).
        intros [v|?|?|? ?] Hv; cbn in Hv; try contradiction; apply plain_plane; exact H.
      * exists {| s3_group := GP (plane_group false N); s3_incl := so2_to_o3 adj (plane_group false N);
                  s3_restr := o3_to_so2 adj (plane_group false N) |}; split.
        { unfold plane_group; destruct (Z.eqb_spec N (-1)); [reflexivity|].
          destruct (Z.ltb_spec 0 N); [reflexivity|lia]. }
        apply (rematrix _ _ _ _ _ (osub_cyc _ adj (cyclic_documented N D) Ha)).
        intros [v|?|?|? ?] Hv; cbn in Hv; try contradiction; apply plain_plane; exact H.
  - unfold o3_subgroup'; cbv zeta; cbn [of_pid o3_group_of o3_matrix].
    destruct (Z.eqb_spec N 1) as [->|N1].
    + eexists; split; [reflexivity|]; apply (rematrix _ _ _ _ _ (osub_mir adj Ha)).
      intros h Hh; destruct (c2_cases h Hh) as (r & Hr & ->).
      cbn [mirror_of o3_matrix plane_angle plane_flip andb Z.eqb Pos.eqb]; rewrite Rmult_0_r, Rplus_0_r; apply mirror_cone.
    + exists {| s3_group := GP (plane_group true N); s3_incl := con_to_o3 adj (plane_group true N);
                s3_restr := o3_to_con adj (plane_group true N) |}; split.
      { unfold plane_group; destruct (Z.eqb_spec N (-1)); [reflexivity|].
        destruct (Z.eqb_spec N 1); [contradiction|]; destruct (Z.ltb_spec 1 N); [reflexivity|lia]. }
      apply (rematrix _ _ _ _ _ (osub_con _ adj (dihedral_documented N H N1) Ha)).
      intros [v|?|?|? ?] Hv; cbn in Hv; try contradiction; cbn [cone_of o3_matrix]; unfold cone_base, plane_angle, plane_flip.
      replace (N =? 1)%Z with false by (symmetry; apply Z.eqb_neq; exact N1); cbn [andb].
      rewrite Rmult_0_r, Rplus_0_r; apply meq_refl3.
Qed.

(** ** Processing *)

Definition adj_of (adj : option oval) : oval := match adj with Some a => a | None => o3_id end.
Lemma adj_ok : forall adj, valid_adj adj -> ounit (adj_of adj) /\ meq 3 3 (frame adj) (omat (adj_of adj)).
Proof. intros [a|] H; cbn in *; (split; [assumption || apply ounit_id|]); [apply meq_refl3|apply meq_sym3, omat_id]. Qed.

Lemma omat_frame : forall p q M N, ounit p -> ounit q -> meq 3 3 (conjugate (omat p) M) N ->
  meq 3 3 (conjugate (omat (omul p q)) M) (conjugate (omat q) N).
Proof.
  intros p q M N Hp Hq H; eapply meq_trans3; [apply conj3; [apply omat_mul; assumption|apply meq_refl3]|].
  eapply meq_trans3; [apply conj_conj|]; apply conj3; [apply meq_refl3|exact H].
Qed.

Definition axis_adj (f : flipspec) (adj : oval) : oval :=
  match f with FFloat a => omul (oconj (0%Z, turn_z (a / 2 / 2))) adj | FBool _ => adj end.
Definition swing : oval := (0%Z, Quat 0 (sin (- PI / 4)) 0 (cos (- PI / 4))).
Definition plane_adj (f : flipspec) (N : Z) (adj : oval) : oval :=
  if flips f && (N =? 1)%Z then omul swing (axis_adj f adj) else axis_adj f adj.

Lemma ounit_swing : ounit swing.
Proof. apply ounit_pair; [auto|apply unit_Y]. Qed.
Lemma ounit_axis : forall f adj, ounit adj -> ounit (axis_adj f adj).
Proof.
  intros [b|a] adj Ha; cbn [axis_adj]; [exact Ha|].
  apply ounit_mul; [apply ounit_conj, ounit_turn|exact Ha].
Qed.
Lemma ounit_plane_adj : forall f N adj, ounit adj -> ounit (plane_adj f N adj).
Proof.
  intros f N adj Ha; unfold plane_adj; destruct (flips f && (N =? 1)%Z); [|apply ounit_axis; exact Ha].
  apply ounit_mul; [apply ounit_swing|apply ounit_axis; exact Ha].
Qed.

Lemma oplain_frame : forall f t k adj, ounit adj -> (k = 0 \/ k = 1)%Z ->
  meq 3 3 (conjugate (omat (axis_adj f adj)) (mmul 3 (Rz t) (halfX k)))
          (conjugate (omat adj) (mmul 3 (Rz (t + IZR k * axis2 f)) (halfX k))).
Proof.
  intros [b|a] t k adj Ha Hk; cbn [axis2 axis_adj].
  - rewrite Rmult_0_r, Rplus_0_r; apply meq_refl3.
  - apply omat_frame; [apply ounit_conj, ounit_turn|exact Ha|].
    eapply meq_trans3; [apply conj3; [|apply meq_refl3]|apply turn_frame; exact Hk].
    unfold oconj; cbn [fst snd]; apply omat_rot, meq_refl3.
Qed.

Definition plane_b (f : flipspec) (N : Z) : bool := flips f && negb (N =? 1)%Z.
Definition plane_n (f : flipspec) (N : Z) : Z := if flips f && (N =? 1)%Z then 2%Z else N.

Lemma plane_group_same : forall f N, plane_group (plane_b f N) (plane_n f N) = plane_group (flips f) N.
Proof.
  intros f N; unfold plane_b, plane_n; destruct (flips f); cbn [andb]; [|reflexivity].
  destruct (Z.eqb_spec N 1) as [->|]; reflexivity.
Qed.

Lemma plane_conj : forall f N v adj, ounit adj -> pmember (plane_group (flips f) N) v ->
  meq 3 3 (conjugate (omat (plane_adj f N adj)) (plane_matrix (FBool (plane_b f N)) (plane_n f N) v))
          (conjugate (omat adj) (plane_matrix f N v)).
Proof.
  intros f N v adj Ha Hv; unfold plane_adj, plane_b, plane_n.
  destruct (flips f) eqn:F; cbn [andb negb].
  - destruct (Z.eqb_spec N 1) as [->|N1]; cbn [negb].
    + cbn in Hv; destruct v as [[r|? ?]|?|? ?]; try contradiction; assert (Hr : (r = 0 \/ r = 1)%Z) by lia.
      unfold plane_matrix at 2; unfold plane_angle, plane_flip; rewrite F; cbn [andb Z.eqb Pos.eqb].
      eapply meq_trans3; [|apply oplain_frame; assumption].
      apply omat_frame; [apply ounit_swing|apply ounit_axis; exact Ha|].
      eapply meq_trans3; [apply conj3; [apply omat_rot, meq_refl3|]|].
      * apply meq_sym3, (plain_plane false 2); intros [E _]; discriminate E.
      * eapply meq_trans3; [apply swing_frame; exact Hr|].
        intros i j Hi Hj; destruct Hr as [->| ->]; mat_entries i j Hi Hj; cbn; rewrite ?cos_0, ?sin_0; ring.
    + eapply meq_trans3; [apply conj3; [apply meq_refl3|apply meq_sym3, plain_plane]|].
      { intros [_ E]; contradiction. }
      unfold plane_matrix, base_matrix, plane_angle, plane_flip; rewrite F.
      replace (N =? 1)%Z with false by (symmetry; apply Z.eqb_neq; exact N1); cbn [andb].
      apply oplain_frame; [exact Ha|]; eapply flip_01; exact Hv.
  - eapply meq_trans3; [apply conj3; [apply meq_refl3|apply meq_sym3, plain_plane]|].
    { intros [E _]; discriminate E. }
    unfold plane_matrix, base_matrix, plane_angle, plane_flip; rewrite F; cbn [andb].
    apply oplain_frame; [exact Ha|]; eapply flip_01; exact Hv.
Qed.

(** The inversion ignores its adjoint. *)
Definition final_adj (inv : bool) (f : flipspec) (N : Z) (adj : oval) : oval :=
  if inv && negb (flips f) && (N =? 1)%Z then o3_id else plane_adj f N adj.

Lemma o3_process_plane : forall inv f N adj, f <> ANone -> valid_adj adj ->
  o3_process (O3Plane (IBool inv) f N) adj =
  Ret (P3Plane (IBool inv) (plane_b (ax_flip f) N) (plane_n (ax_flip f) N), final_adj inv (ax_flip f) N (adj_of adj)).
Proof.
  intros inv f N adj Hf Hadj; destruct (adj_ok adj Hadj) as [Ha _].
  unfold o3_process; cbv zeta; fold (adj_of adj).
  unfold final_adj, plane_adj, plane_b, plane_n.
  destruct f as [b|a|]; [| |contradiction Hf; reflexivity]; cbn [ax_flip flips axis_adj assert_ bind].
  - destruct b; cbn [andb negb bind fst snd].
    + destruct (Z.eqb_spec N 1) as [->|N1]; cbn [negb andb].
      * rewrite o3_element_unit by apply ounit_swing; cbn [bind].
        rewrite o3_mul_unit by (try apply ounit_swing; assumption); cbn [bind is_true andb negb].
        rewrite andb_false_r; cbn [negb Z.eqb Pos.eqb]; rewrite andb_false_r; reflexivity.
      * cbn [bind]; rewrite !andb_false_r; reflexivity.
    + cbn [is_true]; rewrite !andb_true_r; destruct inv; cbn [andb]; [|reflexivity].
      destruct (Z.eqb_spec N 1) as [->|]; reflexivity.
  - rewrite o3_element_unit by apply ounit_turn; cbn [bind].
    rewrite o3_inv_unit by apply ounit_turn; cbn [bind].
    rewrite o3_mul_unit by (try assumption; apply ounit_conj, ounit_turn); cbn [bind fst snd andb negb].
    destruct (Z.eqb_spec N 1) as [->|N1]; cbn [negb andb].
    + rewrite o3_element_unit by apply ounit_swing; cbn [bind].
      rewrite o3_mul_unit; [|apply ounit_swing|apply ounit_mul; [apply ounit_conj, ounit_turn|exact Ha]].
      cbn [bind is_true andb negb]; rewrite !andb_false_r; reflexivity.
    + cbn [bind]; rewrite !andb_false_r; reflexivity.
Qed.

(** What the processed id and adjoint stand for. *)
Definition faithful (id : o3id) (adj : option oval) (pid : o3pid) (a : oval) : Prop :=
  pid_ok pid /\ ounit a /\ o3_group_of (of_pid pid) = o3_group_of id /\
  forall h, smember (o3_group_of id) h ->
    meq 3 3 (conjugate (omat a) (o3_matrix (of_pid pid) h)) (conjugate (frame adj) (o3_matrix id h)).

Lemma plane_pid_ok : forall inv f N, (N = -1 \/ 0 < N)%Z -> pid_ok (P3Plane (IBool inv) (plane_b f N) (plane_n f N)).
Proof.
  intros inv f N D; cbn [pid_ok]; unfold plane_b, plane_n; destruct (flips f); cbn [andb].
  - destruct (Z.eqb_spec N 1) as [->|N1]; cbn [negb]; (split; [lia|]); intros [E1 E2]; congruence.
  - split; [exact D|]; intros [E _]; discriminate E.
Qed.

Lemma plane_faithful : forall inv f N adj, f <> ANone -> (N = -1 \/ 0 < N)%Z -> valid_adj adj ->
  faithful (O3Plane (IBool inv) f N) adj
    (P3Plane (IBool inv) (plane_b (ax_flip f) N) (plane_n (ax_flip f) N)) (final_adj inv (ax_flip f) N (adj_of adj)).
Proof.
  intros inv f N adj Hf D Hadj; destruct (adj_ok adj Hadj) as [Ha Fr].
  set (F := ax_flip f).
  assert (G : o3_group_of (of_pid (P3Plane (IBool inv) (plane_b F N) (plane_n F N))) = o3_group_of (O3Plane (IBool inv) f N)).
  { cbn [of_pid o3_group_of ax_flip flips]; fold F; rewrite plane_group_same; destruct inv; [|reflexivity].
    unfold plane_b, plane_n; destruct (flips F); cbn [andb negb]; [|reflexivity].
    destruct (Z.eqb_spec N 1); reflexivity. }
  split; [apply plane_pid_ok; exact D|]; split; [|split; [exact G|]].
  - unfold final_adj; destruct (_ && _ && _); [apply ounit_id|apply ounit_plane_adj; exact Ha].
  - intros h Hh; cbn [o3_group_of] in Hh; fold F in Hh; cbn [of_pid o3_matrix ax_flip]; fold F.
    assert (C : forall v, pmember (plane_group (flips F) N) v ->
      meq 3 3 (conjugate (omat (plane_adj F N (adj_of adj))) (plane_matrix (FBool (plane_b F N)) (plane_n F N) v))
              (conjugate (frame adj) (plane_matrix F N v))).
    { intros v Hv; eapply meq_trans3; [apply plane_conj; assumption|]; apply conj3; [apply meq_sym3, Fr|apply meq_refl3]. }
    unfold final_adj; destruct inv; cbn [andb].
    + destruct (negb (flips F) && (N =? 1)%Z) eqn:B.
      * destruct (c2_cases h Hh) as (r & Hr & ->).
        assert (O : orth3 (frame adj)).
        { destruct (omat_orth _ Ha) as [O1 O2]; split.
          - eapply meq_trans3; [apply mmul3; [exact Fr|apply mtr3, Fr]|exact O1].
          - eapply meq_trans3; [apply mmul3; [apply mtr3, Fr|exact Fr]|exact O2]. }
        eapply meq_trans3; [apply conj_inversion, omat_orth, ounit_id|apply meq_sym3, conj_inversion; exact O].
      * destruct h as [?|?|?|i v]; cbn in Hh; try contradiction; destruct Hh as [Hi Hv].
        eapply meq_trans3; [apply conj3; [apply meq_refl3|apply inversion_mul]|].
        eapply meq_trans3; [|apply conj3; [apply meq_refl3|apply meq_sym3, inversion_mul]].
        assert (L : forall A M, meq 3 3 (conjugate A (mscal (osign i) M)) (mscal (osign i) (conjugate A M))).
        { intros A M r c _ _; unfold conjugate, mscal, mmul; cbn [sumn]; ring. }
        eapply meq_trans3; [apply L|]; eapply meq_trans3; [apply scal3, C; exact Hv|apply meq_sym3, L].
    + destruct h as [v|?|?|? ?]; cbn in Hh; try contradiction; apply C; exact Hh.
Qed.

Lemma cone_none_faithful : forall N adj, (N = -1 \/ 0 < N)%Z -> valid_adj adj ->
  faithful (O3Cone None N) adj (P3Cone N) (adj_of adj).
Proof.
  intros N adj D Hadj; destruct (adj_ok adj Hadj) as [Ha Fr]; split; [exact D|]; split; [exact Ha|]; split; [reflexivity|].
  intros h _; apply conj3; [apply meq_sym3, Fr|apply meq_refl3].
Qed.

Lemma full_faithful : forall b id adj, (id = O3Full b \/ id = O3Name b) -> valid_adj adj ->
  faithful id adj (P3Full b) (adj_of adj).
Proof.
  intros b id adj Hid Hadj; destruct (adj_ok adj Hadj) as [Ha Fr]; split; [exact I|]; split; [exact Ha|].
  destruct Hid as [->| ->]; (split; [reflexivity|]); intros h _;
    (apply conj3; [apply meq_sym3, Fr|]); [apply meq_refl3|]; destruct b, h; apply meq_refl3.
Qed.

(** Turning the frame the other way turns the mirrors the other way. *)
Lemma turn_mirror : forall a k t, (k = 0 \/ k = 1)%Z ->
  meq 3 3 (conjugate (omat (0%Z, turn_z (a / 2 / 2))) (mmul 3 (Rz t) (mirrorY k)))
          (mmul 3 (Rz (t + IZR k * - a)) (mirrorY k)).
Proof.
  intros a k t Hk.
  assert (E : meq 3 3 (omat (0%Z, turn_z (a / 2 / 2))) (Rz (a / 2))) by (apply omat_rot, mat_turn).
  eapply meq_trans3; [apply conj3; [exact E|apply meq_refl3]|]; unfold conjugate.
  assert (T : meq 3 3 (mtr (Rz (a / 2))) (Rz (- (a / 2)))).
  { intros i j Hi Hj; mat_entries i j Hi Hj; unfold mtr, Rz; cbn; rewrite ?cos_neg, ?sin_neg; ring. }
  eapply meq_trans3; [apply mmul3; [exact T|]; apply mmul3_assoc|].
  eapply meq_trans3; [apply mmul3; [apply meq_refl3|]; apply mmul3; [apply meq_refl3|apply mirrorY_Rz; exact Hk]|].
  eapply meq_trans3; [apply mmul3; [apply meq_refl3|apply meq_sym3, mmul3_assoc]|].
  eapply meq_trans3; [apply meq_sym3, mmul3_assoc|].
  apply mmul3; [|apply meq_refl3].
  eapply meq_trans3; [apply mmul3; [apply meq_refl3|apply Rz_add]|].
  eapply meq_trans3; [apply Rz_add|].
  replace (- (a / 2) + (t + IZR (pysign k) * (a / 2))) with (t + IZR k * - a); [apply meq_refl3|].
  destruct Hk as [->| ->]; cbn [pysign Z.eqb Z.pow Z.pow_pos Pos.iter Z.mul]; field.
Qed.

Lemma plane_flip_01 : forall N v, (N = -1 \/ 0 < N)%Z -> pmember (plane_group true N) v ->
  (plane_flip true N v = 0 \/ plane_flip true N v = 1)%Z.
Proof.
  intros N v D Hv; unfold plane_flip; cbn [andb]; destruct (Z.eqb_spec N 1) as [->|].
  - cbn in Hv; destruct v as [[r|? ?]|?|? ?]; try contradiction; lia.
  - eapply flip_01; exact Hv.
Qed.

Lemma cone_some_faithful : forall a N adj, (N = -1 \/ 0 < N)%Z -> valid_adj adj ->
  o3_process (O3Cone (Some a) N) adj = Ret (P3Cone N, omul (0%Z, turn_z (a / 2 / 2)) (adj_of adj)) /\
  faithful (O3Cone (Some (- a)) N) adj (P3Cone N) (omul (0%Z, turn_z (a / 2 / 2)) (adj_of adj)).
Proof.
  intros a N adj D Hadj; destruct (adj_ok adj Hadj) as [Ha Fr]; split.
  - unfold o3_process; cbv zeta; fold (adj_of adj); rewrite o3_element_unit by apply ounit_turn; cbn [bind].
    rewrite o3_mul_unit by (try assumption; apply ounit_turn); reflexivity.
  - split; [exact D|]; split; [apply ounit_mul; [apply ounit_turn|exact Ha]|]; split; [reflexivity|].
    intros [v|?|?|? ?] Hv; cbn in Hv; try contradiction; cbn [of_pid o3_matrix].
    eapply meq_trans3; [|apply conj3; [apply meq_sym3, Fr|apply meq_refl3]].
    apply omat_frame; [apply ounit_turn|exact Ha|].
    rewrite Rmult_0_r, Rplus_0_r; apply turn_mirror, plane_flip_01; assumption.
Qed.

Lemma process_faithful : forall id adj, o3_documented id -> ~ explicit_cone id -> valid_adj adj ->
  exists pid a, o3_process id adj = Ret (pid, a) /\ faithful id adj pid a.
Proof.
  intros [o|inv|[inv|?] f N|[a|] N] adj D K Hadj; cbn in D, K; try contradiction.
  - exists (P3Full o), (adj_of adj); split; [reflexivity|]; apply full_faithful; auto.
  - exists (P3Full inv), (adj_of adj); split; [reflexivity|]; apply full_faithful; auto.
  - assert (Hf : f <> ANone) by (intros ->; contradiction).
    assert (D' : (N = -1 \/ 0 < N)%Z) by (destruct f; [exact D|exact D|contradiction]).
    eexists; eexists; split; [apply o3_process_plane; assumption|apply plane_faithful; assumption].
  - exists (P3Cone N), (adj_of adj); split; [reflexivity|]; apply cone_none_faithful; assumption.
Qed.

Lemma faithful_subgroup : forall id adj pid a s, faithful id adj pid a ->
  o3_subgroup' pid a = Ret s -> space_subgroup ounit omat (frame adj) (o3_group_of id) (o3_matrix id) s.
Proof.
  intros id adj pid a s (P & U & G & E) H; destruct (pid_correct pid a P U) as (s' & H' & C).
  rewrite H in H'; apply Ret_inj in H'; subst s'; rewrite G in C.
  apply (reframe ounit omat _ _ _ _ _ _ C); exact E.
Qed.

Lemma o3_subgroups : forall id adj, o3_documented id -> ~ explicit_cone id -> valid_adj adj ->
  exists s, o3_subgroup id adj = Ret s /\
    space_subgroup ounit omat (frame adj) (o3_group_of id) (o3_matrix id) s.
Proof.
  intros id adj D K Hadj; destruct (process_faithful id adj D K Hadj) as (pid & a & E & F).
  destruct (pid_correct pid a (proj1 F) (proj1 (proj2 F))) as (s & S & _).
  exists s; split; [unfold o3_subgroup; rewrite E; exact S|]; eapply faithful_subgroup; eassumption.
Qed.

Lemma cone_mirrored : forall a N adj, (N = -1 \/ 0 < N)%Z -> valid_adj adj ->
  exists s, o3_subgroup (O3Cone (Some a) N) adj = Ret s /\
    space_subgroup ounit omat (frame adj) (o3_group_of (O3Cone (Some (- a)) N)) (o3_matrix (O3Cone (Some (- a)) N)) s.
Proof.
  intros a N adj D Hadj; destruct (cone_some_faithful a N adj D Hadj) as [E F].
  destruct (pid_correct _ _ (proj1 F) (proj1 (proj2 F))) as (s & S & _).
  exists s; split; [unfold o3_subgroup; rewrite E; exact S|]; eapply faithful_subgroup; eassumption.
Qed.

(** The mirror whose plane is at 45 degrees comes out at -45 degrees. *)
Lemma cone_axis_wrong : exists s, o3_subgroup (O3Cone (Some (PI / 2)) 1) None = Ret s /\
  ~ space_subgroup ounit omat (frame None) (o3_group_of (O3Cone (Some (PI / 2)) 1)) (o3_matrix (O3Cone (Some (PI / 2)) 1)) s.
Proof.
  destruct (cone_mirrored (PI / 2) 1 None ltac:(lia) I) as (s & E & C); exists s; split; [exact E|]; intros C'.
  pose proof (c2_member 1 (or_intror eq_refl)) as Hm.
  destruct (sub_incl _ _ _ _ _ _ C _ Hm) as (g & E1 & _ & M1), (sub_incl _ _ _ _ _ _ C' _ Hm) as (g' & E2 & _ & M2).
  rewrite E1 in E2; apply Ret_inj in E2; subst g'.
  pose proof (meq_trans3 _ _ _ (meq_sym3 _ _ M1) M2 0 1 ltac:(lia) ltac:(lia))%nat as X.
  cbn in X; unfold conjugate, mtr in X; cbn in X.
  replace (0 + 1 * - (PI / 2)) with (- (PI / 2)) in X by ring; replace (0 + 1 * (PI / 2)) with (PI / 2) in X by ring.
  rewrite ?sin_neg, ?cos_neg, sin_PI2, cos_PI2 in X; unfold mid in X; cbn in X; lra.
Qed.
