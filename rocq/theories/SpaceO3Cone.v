(** The cones, the mirror and the inversion in O(3). *)
From Coq Require Import Reals ZArith Bool List Lia Lra.
From Verif Require Import LibRes LibMat LibTrig FinGroupModel SpecFinGroup SpecGroup ParamModel ParamProofs
  PlanarModel SpecPlanar PlanarProofs SpaceModel SpecSpace SpaceProofs SpaceTol SpaceThms SpaceSub SpaceO3Model SpecSpaceO3
  SpaceO3Proofs.
Import ListNotations.
Open Scope R_scope.

(** ** Matrices of turns and mirrors *)

Definition cone_base (G : pgrp) (v : pval) : mat := mmul 3 (Rz (angle_of G v)) (mirrorY (flip_of v)).
Definition cone_of (G : pgrp) (h : sval) : mat := match h with EP v => cone_base G v | _ => mid end.

Lemma mirrorY_Rz : forall f a, (f = 0 \/ f = 1)%Z ->
  meq 3 3 (mmul 3 (mirrorY f) (Rz a)) (mmul 3 (Rz (IZR (pysign f) * a)) (mirrorY f)).
Proof.
  intros f a [->| ->] i j Hi Hj; unfold pysign; cbn [Z.eqb Z.pow Z.pow_pos Pos.iter Z.mul].
  - rewrite Rmult_1_l; mat_entries i j Hi Hj; cbn; ring.
  - replace (IZR (-1) * a) with (- a) by ring; mat_entries i j Hi Hj; cbn; rewrite ?cos_neg, ?sin_neg; ring.
Qed.
Lemma mirrorY_add : forall f g, (f = 0 \/ f = 1)%Z -> (g = 0 \/ g = 1)%Z ->
  meq 3 3 (mmul 3 (mirrorY f) (mirrorY g)) (mirrorY ((f + g) mod 2)).
Proof. intros f g [->| ->] [->| ->] i j Hi Hj; mat_entries i j Hi Hj; cbn; ring. Qed.

Lemma cone_product : forall f g a b, (f = 0 \/ f = 1)%Z -> (g = 0 \/ g = 1)%Z ->
  meq 3 3 (mmul 3 (mmul 3 (Rz a) (mirrorY f)) (mmul 3 (Rz b) (mirrorY g)))
          (mmul 3 (Rz (a + IZR (pysign f) * b)) (mirrorY ((f + g) mod 2))).
Proof.
  intros f g a b Hf Hg.
  eapply meq_trans3; [apply mmul3_assoc|].
  eapply meq_trans3; [apply mmul3; [apply meq_refl3|]; apply meq_sym3, mmul3_assoc|].
  eapply meq_trans3; [apply mmul3; [apply meq_refl3|]; apply mmul3; [apply mirrorY_Rz; exact Hf|apply meq_refl3]|].
  eapply meq_trans3; [apply mmul3; [apply meq_refl3|]; apply mmul3_assoc|].
  eapply meq_trans3; [apply meq_sym3, mmul3_assoc|].
  apply mmul3; [apply Rz_add|apply mirrorY_add; assumption].
Qed.

Lemma cone_mul : forall G v w u, planar_like G -> pmember G v -> pmember G w -> pmul G v w = Ret u ->
  pmember G u /\ meq 3 3 (cone_base G u) (mmul 3 (cone_base G v) (cone_base G w)).
Proof.
  intros G v w u HG Hv Hw E; destruct (planar_mul G v w u HG Hv Hw E) as (M & F & A); split; [exact M|].
  unfold cone_base; rewrite (Rz_same _ _ A), F; apply meq_sym3, cone_product; eapply flip_01; eassumption.
Qed.

Lemma cone_matrix_inj : forall a b f g, (f = 0 \/ f = 1)%Z -> (g = 0 \/ g = 1)%Z ->
  meq 3 3 (mmul 3 (Rz a) (mirrorY f)) (mmul 3 (Rz b) (mirrorY g)) -> f = g /\ same_angle a b.
Proof.
  intros a b f g Hf Hg M.
  pose proof (M 0 0 ltac:(lia) ltac:(lia))%nat as E00; pose proof (M 1 0 ltac:(lia) ltac:(lia))%nat as E10;
  pose proof (M 0 1 ltac:(lia) ltac:(lia))%nat as E01; pose proof (M 1 1 ltac:(lia) ltac:(lia))%nat as E11.
  pose proof (sin2cos2 a) as Q.
  destruct Hf as [->| ->], Hg as [->| ->]; cbn in E00, E10, E01, E11.
  2,3: exfalso; assert (C : cos a = 0) by lra; assert (S : sin a = 0) by lra; rewrite C, S in Q; lra.
  all: split; [reflexivity|]; destruct (angle_unique a b) as [n En]; [lra|lra|exists n; exact En].
Qed.

Lemma cone_inj : forall G v w, planar_like G -> pmember G v -> pmember G w ->
  meq 3 3 (cone_base G v) (cone_base G w) -> v = w.
Proof.
  intros G v w HG Hv Hw M; apply cone_matrix_inj in M as [F A]; try (eapply flip_01; eassumption).
  apply (angle_inj G); assumption.
Qed.

(** ** The reflection *)

Definition refl : oval := (1%Z, Quat 0 1 0 0).
Lemma unit_j : unit (Quat 0 1 0 0).
Proof. unfold unit; cbn; ring. Qed.
Lemma ounit_refl : ounit refl.
Proof. split; [right; reflexivity|apply unit_j]. Qed.
Lemma o3_reflection_eq : o3_reflection = Ret refl.
Proof. apply o3_element_unit, ounit_refl. Qed.
Lemma omat_refl : meq 3 3 (omat refl) (mirrorY 1).
Proof. intros i j Hi Hj; unfold omat, mscal; mat_entries i j Hi Hj; cbn; ring. Qed.
Lemma omat_refl' : meq 3 3 (omat (oconj refl)) (mirrorY 1).
Proof. intros i j Hi Hj; unfold omat, mscal; mat_entries i j Hi Hj; cbn; ring. Qed.

(** The element of a cone. *)
Definition cone_elem (k : Z) (t : R) : oval :=
  if (k =? 0)%Z then (0%Z, turn_z (t / 2)) else omul (0%Z, turn_z (t / 2)) (oconj refl).

Lemma ounit_turn : forall t, ounit (0%Z, turn_z t).
Proof. intros t; apply ounit_pair; [auto|apply unit_turn]. Qed.
Lemma ounit_cone : forall k t, ounit (cone_elem k t).
Proof.
  intros k t; unfold cone_elem; destruct (k =? 0)%Z; [apply ounit_turn|].
  apply ounit_mul; [apply ounit_turn|apply ounit_conj, ounit_refl].
Qed.
Lemma omat_cone : forall k t, (k = 0 \/ k = 1)%Z -> meq 3 3 (omat (cone_elem k t)) (mmul 3 (Rz t) (mirrorY k)).
Proof.
  intros k t [->| ->]; unfold cone_elem; cbn [Z.eqb].
  - eapply meq_trans3; [apply omat_rot, mat_turn|apply meq_sym3, mmul3_id_r].
  - eapply meq_trans3; [apply omat_mul; [apply ounit_turn|apply ounit_conj, ounit_refl]|].
    apply mmul3; [apply omat_rot, mat_turn|apply omat_refl'].
Qed.

Lemma qmul_scal : forall s p q, qmul (qscal s p) q = qscal s (qmul p q).
Proof. intros s p q; apply quat_eq; cbn; ring. Qed.

Lemma snd_cone : forall k t s u, (k = 0 \/ k = 1)%Z -> fst u = k -> snd u = qscal s (snd (cone_elem k t)) ->
  (k = 0%Z -> snd u = qscal s (turn_z (t / 2))) /\
  (k = 1%Z -> snd (omul u refl) = qscal s (turn_z (t / 2))).
Proof.
  intros k t s u Hk F E; split; intros ->; rewrite ?E; [reflexivity|].
  unfold omul; cbn [snd]; rewrite E, qmul_scal; unfold cone_elem; cbn [Z.eqb Pos.eqb omul oconj snd].
  rewrite qmul_assoc, qmul_conj_l, qmul_id_r by apply unit_j; reflexivity.
Qed.

Lemma split_cone : forall u k t, ounit u -> (k = 0 \/ k = 1)%Z -> meq 3 3 (omat u) (mmul 3 (Rz t) (mirrorY k)) ->
  fst u = k /\ exists s, s * s = 1 /\
    (k = 0%Z -> snd u = qscal s (turn_z (t / 2))) /\ (k = 1%Z -> snd (omul u refl) = qscal s (turn_z (t / 2))).
Proof.
  intros u k t Hu Hk E; pose proof (ounit_cone k t) as Uc.
  destruct (omat_inj u (cone_elem k t) Hu Uc) as [F M].
  { eapply meq_trans3; [exact E|apply meq_sym3, omat_cone; exact Hk]. }
  destruct (sign_quat _ _ (mat_inj _ _ (proj2 Hu) (proj2 Uc) M)) as (s & Hs & S).
  assert (F' : fst u = k) by (rewrite F; destruct Hk as [->| ->]; reflexivity).
  split; [exact F'|]; exists s; split; [exact Hs|]; apply snd_cone; assumption.
Qed.

(** An element is its product with the reflection, reflected again. *)
Lemma unreflect : forall u, ounit u -> fst u = 1%Z ->
  meq 3 3 (omat u) (mmul 3 (as_matrix (snd (omul u refl))) (mirrorY 1)).
Proof.
  intros u Hu F.
  assert (E : omul (omul u refl) (oconj refl) = u) by (rewrite omul_assoc, omul_conj_r, omul_id_r by (try assumption; apply ounit_refl); reflexivity).
  rewrite <- E at 1.
  eapply meq_trans3; [apply omat_mul; [apply ounit_mul; [exact Hu|apply ounit_refl]|apply ounit_conj, ounit_refl]|].
  apply mmul3; [|apply omat_refl'].
  assert (Z0 : fst (omul u refl) = 0%Z) by (unfold omul; cbn [fst refl]; rewrite F; reflexivity).
  intros i j Hi Hj; unfold omat, mscal; rewrite Z0; cbn [Z.eqb]; ring.
Qed.

Lemma mirror_error : forall k (A B : mat) e, (k = 0 \/ k = 1)%Z ->
  (forall i j, (i < 3)%nat -> (j < 3)%nat -> Rabs (A i j - B i j) <= e) ->
  forall i j, (i < 3)%nat -> (j < 3)%nat -> Rabs (mmul 3 A (mirrorY k) i j - mmul 3 B (mirrorY k) i j) <= e.
Proof.
  intros k A B e Hk H i j Hi Hj; pose proof (H i j Hi Hj) as E; apply abs_le_inv in E; apply Rabs_le.
  destruct j as [|[|[|?]]]; [| | |lia]; destruct Hk as [->| ->]; unfold mmul; cbn in *; lra.
Qed.

Lemma halfX_0 : forall A, meq 3 3 (mmul 3 A (halfX 0)) A.
Proof. intros A; apply mmul3_id_r. Qed.

(** ** The cones *)

Lemma osub_con : forall G adj, dihedral_like G -> ounit adj ->
  space_subgroup ounit omat (omat adj) (GP G) (cone_of G)
    {| s3_group := GP G; s3_incl := con_to_o3 adj G; s3_restr := o3_to_con adj G |}.
Proof.
  intros G adj HG Ha; apply (framed adj _ _ _ (fun u => opt_map EP (con_of G u (omul u refl))) Ha);
    cbn [s3_group s3_incl s3_restr].
  - reflexivity.
  - intros [v| | |] [w| | |] hk Hv Hw E; cbn in Hv, Hw; try contradiction; cbn [smul] in E.
    destruct (pmul G v w) as [|u] eqn:P; [discriminate E|]; cbn [bind] in E; apply Ret_inj in E; subst hk; cbn.
    apply cone_mul; try assumption; right; exact HG.
  - intros [v| | |] [w| | |] Hv Hw E; cbn in Hv, Hw; try contradiction; cbn; f_equal.
    apply (cone_inj G); try assumption; right; exact HG.
  - intros [v| | |] Hv; cbn in Hv; try contradiction; unfold con_to_o3.
    exists (cone_elem (flip_of v) (angle_of G v)).
    split; [|split; [apply ounit_cone|apply omat_cone; eapply flip_01; exact Hv]].
    rewrite o3_reflection_eq; cbn [bind].
    assert (R : to_radians2 G v = Ret (flip_of v, angle_of G v)).
    { destruct HG as [->|(N & HN & ->)]; unpack.
      - unfold to_radians2; rewrite o2_norm_eq, m_id by apply Hv; reflexivity.
      - rewrite to_radians2_dih by (try assumption; apply Hv); reflexivity. }
    rewrite R; cbn [bind fst snd]; rewrite o3_element_unit by apply ounit_turn; cbn [bind]; unfold cone_elem.
    destruct (flip_01 G v Hv) as [->| ->]; cbn [Z.eqb Pos.eqb bind]; [reflexivity|].
    rewrite o3_inv_unit by apply ounit_refl; cbn [bind].
    rewrite o3_mul_unit by (try apply ounit_turn; apply ounit_conj, ounit_refl); reflexivity.
  - intros g Hg; unfold o3_to_con; rewrite o3_reflection_eq; cbn [bind]; rewrite o3_to_adj_unit by assumption; cbn [bind].
    rewrite o3_mul_unit by (try apply ounit_refl; apply ounit_moved; assumption); reflexivity.
  - intros u Hu; unfold con_of, or_none.
    destruct ((fst u =? 0)%Z && xy_zero (snd u)); [destruct (element_radians2 _ _ _); cbn; eauto|].
    destruct ((fst u =? 1)%Z && xy_zero (snd (omul u refl))); [destruct (element_radians2 _ _ _)|]; cbn; eauto.
  - intros [v| | |] u Hv Hu E; cbn in Hv; try contradiction; cbn [cone_of] in E.
    destruct (split_cone u (flip_of v) (angle_of G v) Hu (flip_01 G v Hv) E) as (F & s & Hs & S0 & S1).
    exists (EP v); split; [|split; [exact Hv|reflexivity]].
    pose proof (element_radians2_exact G v _ HG Hv (atan2_half (angle_of G v) s Hs)) as X.
    unfold con_of; rewrite F; destruct (flip_01 G v Hv) as [K|K]; rewrite K in *; cbn [Z.eqb Pos.eqb andb].
    + rewrite S0 by reflexivity; unfold xy_zero; cbn [qscal qx qy qz qw turn_z].
      rewrite Rmult_0_r, np_isclose_refl by apply tol_pos; cbn [andb]; rewrite X; reflexivity.
    + rewrite S1 by reflexivity; unfold xy_zero at 1; cbn [qscal qx qy qz qw turn_z].
      rewrite Rmult_0_r, np_isclose_refl by apply tol_pos; cbn [andb]; rewrite X; reflexivity.
  - intros u k Hu E; unfold con_of, or_none in E.
    destruct ((fst u =? 0)%Z && xy_zero (snd u)) eqn:B0; [|destruct ((fst u =? 1)%Z && xy_zero (snd (omul u refl))) eqn:B1].
    + apply andb_prop in B0 as [F Z]; apply Z.eqb_eq in F.
      destruct (element_radians2 G 0 _) as [|w] eqn:R; [discriminate E|]; cbn in E; injection E as <-.
      destruct (element_radians2_sound _ _ _ _ HG (or_introl eq_refl) R) as (M & K & a & A & N); split; [exact M|].
      apply omat_rot_error; [exact F|]; intros i j Hi Hj; cbn [cone_of]; unfold cone_base; rewrite K.
      apply Rle_trans with (5 / 100000000 + / 10 ^ 8); [|replace (/ 10 ^ 8) with (1 / 100000000) by field; lra].
      apply near_sum with (mmul 3 (Rz (2 * atan2 (qz (snd u)) (qw (snd u)))) (halfX 0)); [apply turn_near; try assumption; apply Hu|].
      rewrite <- (Rz_same _ _ A); apply Rz_near; assumption.
    + apply andb_prop in B1 as [F Z]; apply Z.eqb_eq in F.
      destruct (element_radians2 G 1 _) as [|w] eqn:R; [discriminate E|]; cbn in E; injection E as <-.
      destruct (element_radians2_sound _ _ _ _ HG (or_intror eq_refl) R) as (M & K & a & A & N); split; [exact M|].
      assert (Up : unit (snd (omul u refl))) by (apply ounit_mul; [exact Hu|apply ounit_refl]).
      intros i j Hi Hj; rewrite (unreflect u Hu F i j Hi Hj); cbn [cone_of]; unfold cone_base; rewrite K.
      apply mirror_error; [auto| |exact Hi|exact Hj]; clear i j Hi Hj; intros i j Hi Hj.
      rewrite <- (halfX_0 (Rz (angle_of G w)) i j Hi Hj).
      apply Rle_trans with (5 / 100000000 + / 10 ^ 8); [|replace (/ 10 ^ 8) with (1 / 100000000) by field; lra].
      apply near_sum with (mmul 3 (Rz (2 * atan2 (qz (snd (omul u refl))) (qw (snd (omul u refl))))) (halfX 0));
        [apply turn_near; assumption|].
      rewrite <- (Rz_same _ _ A); apply Rz_near; assumption.
    + discriminate E.
Qed.

(** ** The mirror *)

Lemma near_id : forall u i j, unit u -> xyz_zero u = true -> (i < 3)%nat -> (j < 3)%nat ->
  Rabs (as_matrix u i j - (mid : mat) i j) <= 5 / 100000000.
Proof.
  intros u i j U Z Hi Hj; unfold xyz_zero, xy_zero in Z; apply andb_prop in Z as [Z Zz]; apply andb_prop in Z as [Zx Zy].
  apply isclose_zero_bound in Zx, Zy, Zz; unfold unit in U.
  pose proof (small_sq _ Zx) as XX; pose proof (small_sq _ Zy) as YY; pose proof (small_sq _ Zz) as ZZ.
  pose proof (unit_le (qw u) (qx u) (qy u) (qz u) ltac:(lra)) as W.
  pose proof (small_prod _ (qw u) Zx W) as XW; pose proof (small_prod _ (qw u) Zy W) as YW;
  pose proof (small_prod _ (qw u) Zz W) as ZW.
  pose proof (small_prod _ (qy u) Zx (unit_le (qy u) (qx u) (qz u) (qw u) ltac:(lra))) as XY.
  pose proof (small_prod _ (qz u) Zx (unit_le (qz u) (qx u) (qy u) (qw u) ltac:(lra))) as XZ.
  pose proof (small_prod _ (qz u) Zy (unit_le (qz u) (qx u) (qy u) (qw u) ltac:(lra))) as YZ.
  pose proof (Rle_0_sqr (qx u)) as PX; pose proof (Rle_0_sqr (qy u)) as PY; pose proof (Rle_0_sqr (qz u)) as PZ; unfold Rsqr in PX, PY, PZ.
  replace (/ 10 ^ 8) with (1 / 100000000) in * by field.
  apply abs_le_inv in XW, YW, ZW, XY, XZ, YZ.
  mat_entries i j Hi Hj; cbn; apply Rabs_le; lra.
Qed.

Lemma id_exact : forall s, s * s = 1 -> xyz_zero (qscal s so3_id) = true /\ np_isclose (/ 10 ^ 8) (Rabs (qw (qscal s so3_id))) 1 = true.
Proof.
  intros s Hs; unfold xyz_zero, xy_zero; cbn [qscal so3_id qx qy qz qw]; rewrite Rmult_0_r, np_isclose_refl by apply tol_pos.
  split; [reflexivity|]; replace (Rabs (s * 1)) with 1; [apply np_isclose_refl, tol_pos|].
  apply sq_1 in Hs as [->| ->]; rewrite Rmult_1_r; [rewrite Rabs_R1; reflexivity|].
  rewrite Rabs_left by lra; ring.
Qed.

(** The elements of C_2. *)
Lemma c2_cases : forall h, smember (GP (Fin (Cyc 2))) h -> exists r, (r = 0 \/ r = 1)%Z /\ h = EP (VF (VC r)).
Proof.
  intros [v| | |] Hv; cbn in Hv; try contradiction; destruct v as [[r|? ?]|?|? ?]; try contradiction.
  exists r; split; [lia|reflexivity].
Qed.
Lemma c2_member : forall r, (r = 0 \/ r = 1)%Z -> smember (GP (Fin (Cyc 2))) (EP (VF (VC r))).
Proof. intros r H; cbn; lia. Qed.
Lemma c2_mul : forall r s hk, (r = 0 \/ r = 1)%Z -> (s = 0 \/ s = 1)%Z ->
  smul (GP (Fin (Cyc 2))) (EP (VF (VC r))) (EP (VF (VC s))) = Ret hk -> hk = EP (VF (VC ((r + s) mod 2))).
Proof.
  intros r s hk Hr Hs E; cbn [smul] in E; rewrite gmul_cyc in E by lia; cbn [bind] in E; apply Ret_inj in E; symmetry; exact E.
Qed.

Definition mirror_of (h : sval) : mat := match h with EP (VF (VC r)) => mirrorY r | _ => mid end.

Lemma turn_0 : turn_z (0 / 2) = so3_id.
Proof. unfold turn_z, so3_id; replace (0 / 2) with 0 by field; rewrite sin_0, cos_0; reflexivity. Qed.
Lemma Rz_0 : meq 3 3 (Rz 0) mid.
Proof. intros i j Hi Hj; mat_entries i j Hi Hj; cbn; rewrite ?cos_0, ?sin_0; ring. Qed.
Lemma mirror_cone : forall k, meq 3 3 (mirrorY k) (mmul 3 (Rz 0) (mirrorY k)).
Proof.
  intros k; eapply meq_trans3; [apply meq_sym3, mmul3_id_l|]; apply mmul3; [apply meq_sym3, Rz_0|apply meq_refl3].
Qed.

Lemma osub_mir : forall adj, ounit adj ->
  space_subgroup ounit omat (omat adj) (GP (Fin (Cyc 2))) mirror_of
    {| s3_group := GP (Fin (Cyc 2)); s3_incl := mir_to_o3 adj; s3_restr := o3_to_mir adj |}.
Proof.
  intros adj Ha; apply (framed adj _ _ _ (fun u =>
      Ret (if (fst u =? 0)%Z && xyz_zero (snd u) then Some (EP (VF (VC 0)))
           else if (fst u =? 1)%Z && xyz_zero (snd (omul u refl)) then Some (EP (VF (VC 1))) else None)) Ha);
    cbn [s3_group s3_incl s3_restr].
  - reflexivity.
  - intros h k hk Hh Hk E; destruct (c2_cases h Hh) as (r & Hr & ->), (c2_cases k Hk) as (s & Hs & ->).
    rewrite (c2_mul r s hk Hr Hs E); split; [apply c2_member, inv_add; assumption|].
    apply meq_sym3, mirrorY_add; assumption.
  - intros h k Hh Hk E; destruct (c2_cases h Hh) as (r & Hr & ->), (c2_cases k Hk) as (s & Hs & ->).
    cbn; do 3 f_equal; pose proof (E 1 1 ltac:(lia) ltac:(lia))%nat as D.
    destruct Hr as [->| ->], Hs as [->| ->]; cbn in D; try reflexivity; lra.
  - intros h Hh; destruct (c2_cases h Hh) as (r & Hr & ->); cbn [mir_to_o3 mirror_of]; rewrite o3_reflection_eq; cbn [bind].
    destruct Hr as [->| ->]; cbn [Z.eqb].
    + exists o3_id; split; [|split; [apply ounit_id|apply omat_id]].
      destruct (o3_from_adj_unit adj o3_id Ha ounit_id) as [-> _].
      rewrite omul_id_r, omul_conj_l by (try assumption; apply ounit_conj; assumption); reflexivity.
    + exists refl; split; [reflexivity|]; split; [apply ounit_refl|apply omat_refl].
  - intros g Hg; unfold o3_to_mir; rewrite o3_reflection_eq; cbn [bind]; rewrite o3_to_adj_unit by assumption; cbn [bind].
    rewrite o3_mul_unit by (try apply ounit_refl; apply ounit_moved; assumption); reflexivity.
  - intros u _; eauto.
  - intros h u Hh Hu E; destruct (c2_cases h Hh) as (r & Hr & ->); cbn [mirror_of] in E.
    exists (EP (VF (VC r))); split; [|split; [exact Hh|reflexivity]].
    destruct (split_cone u r 0 Hu Hr (meq_trans3 _ _ _ E (mirror_cone r))) as (F & s & Hs & S0 & S1).
    rewrite turn_0 in S0, S1; destruct (id_exact s Hs) as [X _]; rewrite F.
    destruct Hr as [->| ->]; cbn [Z.eqb Pos.eqb andb]; [rewrite S0|rewrite S1]; try reflexivity; rewrite X; reflexivity.
  - intros u k Hu E.
    destruct ((fst u =? 0)%Z && xyz_zero (snd u)) eqn:B0; [|destruct ((fst u =? 1)%Z && xyz_zero (snd (omul u refl))) eqn:B1].
    + apply andb_prop in B0 as [F Z]; apply Z.eqb_eq in F; injection E as <-; split; [apply c2_member; auto|].
      apply omat_rot_error; [exact F|]; intros i j Hi Hj; cbn [mirror_of mirrorY Z.eqb].
      eapply Rle_trans; [apply near_id; try assumption; apply Hu|lra].
    + apply andb_prop in B1 as [F Z]; apply Z.eqb_eq in F; injection E as <-; split; [apply c2_member; auto|].
      assert (Up : unit (snd (omul u refl))) by (apply ounit_mul; [exact Hu|apply ounit_refl]).
      intros i j Hi Hj; rewrite (unreflect u Hu F i j Hi Hj); cbn [mirror_of].
      rewrite <- (mmul3_id_l (mirrorY 1) i j Hi Hj).
      apply mirror_error; [auto| |exact Hi|exact Hj]; clear i j Hi Hj; intros i j Hi Hj.
      eapply Rle_trans; [apply near_id; assumption|lra].
    + discriminate E.
Qed.

(** ** The inversion *)

Definition inv_of (h : sval) : mat := match h with EP (VF (VC r)) => inversion r | _ => mid end.

Lemma oconj_id : oconj o3_id = o3_id.
Proof. unfold oconj, o3_id; cbn [fst snd]; f_equal; apply quat_eq; cbn; ring. Qed.
Lemma omoved_id : forall g, ounit g -> omoved o3_id g = g.
Proof. intros g Hg; unfold omoved; rewrite oconj_id, omul_id_l, omul_id_r by assumption; reflexivity. Qed.

Lemma osub_inv_id :
  space_subgroup ounit omat (omat o3_id) (GP (Fin (Cyc 2))) inv_of
    {| s3_group := GP (Fin (Cyc 2)); s3_incl := inv_to_o3; s3_restr := o3_to_inv |}.
Proof.
  apply (framed o3_id _ _ _ o3_to_inv ounit_id); cbn [s3_group s3_incl s3_restr].
  - reflexivity.
  - intros h k hk Hh Hk E; destruct (c2_cases h Hh) as (r & Hr & ->), (c2_cases k Hk) as (s & Hs & ->).
    rewrite (c2_mul r s hk Hr Hs E); split; [apply c2_member, inv_add; assumption|].
    cbn [inv_of]; unfold inversion; fold (osign r) (osign s) (osign ((r + s) mod 2)); rewrite osign_add by assumption.
    eapply meq_trans3; [|apply mscal_mul]; intros i j Hi Hj; unfold mscal; rewrite (mmul3_id_l mid i j Hi Hj); reflexivity.
  - intros h k Hh Hk E; destruct (c2_cases h Hh) as (r & Hr & ->), (c2_cases k Hk) as (s & Hs & ->).
    cbn; do 3 f_equal; pose proof (E 1 1 ltac:(lia) ltac:(lia))%nat as D.
    destruct Hr as [->| ->], Hs as [->| ->]; cbn in D; unfold inversion, mscal, mid in D; cbn in D; try reflexivity; lra.
  - intros h Hh; destruct (c2_cases h Hh) as (r & Hr & ->); cbn [inv_to_o3 inv_of]; fold so3_id.
    assert (U : ounit (r, so3_id)) by (apply ounit_pair; [exact Hr|apply unit_id]).
    exists (r, so3_id); split; [|split; [exact U|apply omat_pair, mat_id]].
    rewrite o3_element_unit by exact U; destruct (o3_from_adj_unit o3_id _ ounit_id U) as [-> _].
    rewrite oconj_id, omul_id_l, omul_id_r by exact U; reflexivity.
  - intros g Hg; rewrite omoved_id by exact Hg; reflexivity.
  - intros u _; unfold o3_to_inv; eauto.
  - intros h u Hh Hu E; destruct (c2_cases h Hh) as (r & Hr & ->); cbn [inv_of] in E.
    exists (EP (VF (VC r))); split; [|split; [exact Hh|reflexivity]].
    destruct (split_elem u r so3_id Hu Hr unit_id) as (F & s & Hs & S).
    { eapply meq_trans3; [exact E|]; intros i j Hi Hj; unfold inversion, mscal; rewrite (mat_id i j Hi Hj); reflexivity. }
    unfold o3_to_inv; rewrite F, S; destruct (id_exact s Hs) as [-> ->]; reflexivity.
  - intros u k Hu E; unfold o3_to_inv in E.
    destruct (xyz_zero (snd u) && np_isclose (/ 10 ^ 8) (Rabs (qw (snd u))) 1) eqn:B; [|discriminate E].
    apply andb_prop in B as [Z _]; injection E as <-; split; [apply c2_member, Hu|].
    intros i j Hi Hj; apply (omat_error u mid); [|exact Hi|exact Hj]; clear i j Hi Hj; intros i j Hi Hj.
    eapply Rle_trans; [apply near_id; try assumption; apply Hu|lra].
Qed.

Lemma conj_inversion : forall A r, orth3 A -> meq 3 3 (conjugate A (inversion r)) (inversion r).
Proof.
  intros A r [_ H] i j Hi Hj; unfold inversion; set (c := if (r =? 0)%Z then 1 else -1).
  pose proof (H i j Hi Hj) as E.
  assert (K : conjugate A (mscal c mid) i j = c * mmul 3 (mtr A) A i j).
  { unfold conjugate, mmul, mscal, mid; cbn [sumn Nat.eqb]; ring. }
  rewrite K, E; reflexivity.
Qed.

Lemma osub_inv : forall A, orth3 A ->
  space_subgroup ounit omat A (GP (Fin (Cyc 2))) inv_of
    {| s3_group := GP (Fin (Cyc 2)); s3_incl := inv_to_o3; s3_restr := o3_to_inv |}.
Proof.
  intros A HA; apply (reframe ounit omat _ _ _ _ _ _ osub_inv_id).
  intros h Hh; destruct (c2_cases h Hh) as (r & Hr & ->); cbn [inv_of].
  eapply meq_trans3; [apply conj_inversion, omat_orth, ounit_id|apply meq_sym3, conj_inversion; exact HA].
Qed.
