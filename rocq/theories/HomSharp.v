(** Restrictions whose change of basis is the identity or far from it. *)
From Coq Require Import Reals ZArith Bool List Lia Lra Setoid Morphisms Arith.
From Verif Require Import LibRes LibList LibMat LibMatS LibTrig SpecGroup SpecRep ParamModel ParamProofs FinGroupModel PlanarModel SpecPlanar PlanarProofs FinGroupProofs IrrepModel SpecIrrep IrrepProofs
  RepModel SpecRepr RepProofs SpecReg IndFinModel IndPlanar GSpaceModel SpecGSpace FieldMapModel SpecHom HomPlanar.
Import ListNotations.
Open Scope R_scope.

Theorem untilted_sharp : forall G sid id, pvalid G -> listed G sid -> untilted sid -> irrep_ok G id ->
  forall x, any_restrict_irrep G sid id = Ret x -> sharp (fst (fst x)) (snd (fst x)).
Proof.
  intros G sid id V L U Hid x E.
  assert (Rot0 : forall k, meq 2 2 (psi (1 / 2 * 0) k 0) mid).
  { intros k; unfold psi; replace (IZR k * (1 / 2 * 0) + 0) with 0 by (unfold Rdiv; ring); rewrite cos_0, sin_0; m22; ring. }
  destruct G as [F| |], sid as [i|i]; cbn in L; try contradiction; cbn [any_restrict_irrep] in E.
  - refine (sharp_simple F i V L _ id x Hid E); destruct i as [M|[a|] M]; cbn in U |- *; auto.
  - destruct i as [M|? ?]; [|contradiction]; cbn [p_restrict_irrep] in E; unfold so2_restrict_irrep in E.
    apply bind_Ret in E as (r & Er & E); apply bind_Ret in E as (sg & Es & E); destruct (M =? -1)%Z; [apply Ret_inj in E; subst x; left; reflexivity|].
    apply bind_Ret in E as (s & _ & E); apply Ret_inj in E; subst x; cbn [fst].
    destruct (M <? 2 * (ir_freq r mod M))%Z; cbn [snd fst]; [apply reflection_sharp; [lia|reflexivity]|left; reflexivity].
  - destruct i as [?|a M]; [contradiction|]; cbn [p_restrict_irrep] in E; unfold o2_restrict_irrep in E.
    apply bind_Ret in E as (r & Er & E); apply bind_Ret in E as (sg & Es & E); destruct a as [a|].
    + cbn in U; subst a; destruct (M =? -1)%Z; [|destruct (M =? 1)%Z].
      * destruct (Nat.eqb_spec (ir_size r) 2) as [S2|_]; [|apply Ret_inj in E; subst x; left; reflexivity].
        apply bind_Ret in E as (cob & Ec & E); apply Ret_inj in E; subst x; cbn [fst].
        unfold sq_mul in Ec; apply assert_Ret in Ec as [Ed Ec]; apply Ret_inj in Ec; subst cob; cbn [fst snd]; left; rewrite Rot0, mid_l; reflexivity.
      * apply bind_Ret in E as (j & _ & E); cbn zeta in E; destruct (Nat.ltb 1 (ir_size r)); apply Ret_inj in E; subst x; left; [apply Rot0|reflexivity].
      * apply bind_Ret in E as (j & _ & E); cbn zeta in E; apply bind_Ret in E as (s & _ & E).
        destruct (Nat.eqb_spec (ir_size r) 2) as [S2|_].
        -- apply bind_Ret in E as (cob & Ec & E); apply Ret_inj in E; subst x; cbn [fst].
           unfold sq_mul in Ec; apply assert_Ret in Ec as [Ed Ec]; apply Ret_inj in Ec; subst cob; cbn [fst snd].
           destruct (M <? 2 * (ir_freq r mod M))%Z; cbn [fst snd].
           ++ apply reflection_sharp; [lia|]; unfold mmul; cbn [sumn]; rewrite !Rot0 by lia; unfold mid, mat2; cbn; ring.
           ++ left; rewrite Rot0, mid_l; reflexivity.
        -- apply Ret_inj in E; subst x; cbn [fst].
           destruct (M <? 2 * (ir_freq r mod M))%Z; cbn [fst snd]; [apply reflection_sharp; [lia|reflexivity]|left; reflexivity].
    + destruct (M =? -1)%Z; [apply Ret_inj in E; subst x; left; reflexivity|]; cbn zeta in E.
      apply bind_Ret in E as (c & Ec & E); unfold chi in Ec; cbn in Ec; apply Ret_inj in Ec; subst c.
      apply bind_Ret in E as (s & _ & E); apply Ret_inj in E; subst x; cbn [fst].
      destruct (M <? 2 * (ir_freq r mod M))%Z; cbn [fst snd]; [apply reflection_sharp; [lia|reflexivity]|left; reflexivity].
Qed.
