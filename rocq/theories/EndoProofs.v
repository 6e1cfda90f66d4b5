(** The commutant of every irrep of C_N, D_N, SO(2) and O(2). *)
From Coq Require Import Reals ZArith Bool List Lia Lra Setoid Morphisms.
From Verif Require Import LibRes LibMat LibTrig SpecGroup FinGroupModel SpecFinGroup FinGroupProofs
  ParamModel ParamProofs PlanarModel SpecPlanar PlanarProofs IrrepModel SpecRep SpecIrrep IrrepProofs.
Import ListNotations.
Open Scope R_scope.

Definition has_flips (G : pgrp) : bool := match G with Fin (Dih _) | O2 => true | _ => false end.

(** an element on which a two-dimensional irrep is not a multiple of the identity *)
Lemma generic_rotation : forall G id k, pvalid G -> irrep_ok G id -> irrep_kind G id = K2 k ->
  exists g, pmember G g /\ fl G g = 0%Z /\ sin (IZR k * th G g) <> 0.
Proof.
  intros G id k HG Hid HK; pose proof PI_RGT_0 as HP.
  assert (Fin_case : forall N, (0 < N)%Z -> (0 <= 2 * k <= N)%Z -> (k <> 0)%Z -> (2 * k <> N)%Z ->
    sin (IZR k * ang N 1) <> 0).
  { intros N HN H1 H2 H3; pose proof (IZR_pos N HN) as HNr.
    assert (0 < IZR k) by (apply IZR_lt; lia).
    assert (2 * IZR k < IZR N) by (rewrite <- mult_IZR; apply IZR_lt; lia).
    apply Rgt_not_eq, sin_gt_0; unfold ang.
    - replace (IZR k * (2 * PI / IZR N * 1)) with (2 * PI * IZR k / IZR N) by (field; lra).
      apply Rdiv_lt_0_compat; [apply Rmult_lt_0_compat; [lra|assumption]|lra].
    - replace (IZR k * (2 * PI / IZR N * 1)) with (PI * (2 * IZR k / IZR N)) by (field; lra).
      rewrite <- (Rmult_1_r PI) at 2; apply Rmult_lt_compat_l; [lra|].
      apply Rmult_lt_reg_r with (IZR N); [lra|]; field_simplify; lra. }
  assert (Cont : (0 < k)%Z -> 0 <= PI / 2 / IZR k < 2 * PI /\ sin (IZR k * (PI / 2 / IZR k)) <> 0).
  { intros Hk; pose proof (IZR_pos k Hk) as Hkr; assert (1 <= IZR k) by (apply IZR_le; lia).
    split; [split|].
    - apply Rlt_le, Rdiv_lt_0_compat; lra.
    - apply Rmult_lt_reg_r with (IZR k); [lra|]; unfold Rdiv at 1; rewrite Rmult_assoc, Rinv_l by lra.
      assert (2 * PI * 1 <= 2 * PI * IZR k) by (apply Rmult_le_compat_l; lra); lra.
    - replace (IZR k * (PI / 2 / IZR k)) with (PI / 2) by (field; lra); rewrite sin_PI2; lra. }
  destruct G as [[N|N]| |]; cbn [irrep_ok irrep_kind] in *.
  - destruct id as [|k' [|]]; try contradiction.
    destruct (Z.eqb_spec k' 0), (Z.eqb_spec (2 * k') N); cbn [orb] in HK; try discriminate HK; injection HK as ->.
    apply Z.ltb_lt in HG; exists (VF (VC 1)); cbn; split; [lia|split; [reflexivity|apply Fin_case; lia]].
  - destruct id as [|j [|k' [|]]]; try contradiction.
    destruct (Z.eqb_spec k' 0), (Z.eqb_spec (2 * k') N); cbn [orb] in HK; try discriminate HK; injection HK as ->.
    apply Z.ltb_lt in HG; exists (VF (VD 0 1)); cbn; split; [lia|split; [reflexivity|apply Fin_case; lia]].
  - destruct id as [|k' [|]]; try contradiction.
    destruct (Z.eqb_spec k' 0); try discriminate HK; injection HK as ->.
    destruct (Cont ltac:(lia)) as [C1 C2]; exists (VS (PI / 2 / IZR k)); cbn; auto.
  - destruct id as [|j [|k' [|]]]; try contradiction.
    destruct (Z.eqb_spec k' 0); try discriminate HK; injection HK as ->.
    destruct (Cont ltac:(lia)) as [C1 C2]; exists (VO 0 (PI / 2 / IZR k)); cbn; auto.
Qed.

Lemma pure_flip : forall G, pvalid G -> has_flips G = true ->
  exists g, pmember G g /\ fl G g = 1%Z /\ th G g = 0.
Proof.
  intros [[N|N]| |] HG HF; try discriminate HF; pose proof PI_RGT_0.
  - apply Z.ltb_lt in HG; exists (VF (VD 1 0)); cbn; repeat split; auto; try lia; unfold ang; ring.
  - exists (VO 1 0); cbn; repeat split; auto; lra.
Qed.

(** What commuting with the values says about a 2 x 2 matrix. *)
Lemma commuting2 : forall G id r k X, pvalid G -> irrep_ok G id -> irrep_kind G id = K2 k ->
  irrep_as G id r (K2 k) ->
  (forall g A, pmember G g -> ir_rep r g = Ret (2%nat, A) -> meq 2 2 (mmul 2 A X) (mmul 2 X A)) ->
  X 1%nat 1%nat = X 0%nat 0%nat /\ X 0%nat 1%nat = - X 1%nat 0%nat /\
  (has_flips G = true -> X 1%nat 0%nat = 0).
Proof.
  intros G id r k X HG Hid HK (_ & _ & Es & _ & _ & _ & Hr) HX.
  destruct (generic_rotation G id k HG Hid HK) as (g & Hg & Hf & Hs).
  destruct (Hr g Hg) as (A & EA & MA & _); cbn [kdim kmat] in *; rewrite Hf in MA.
  pose proof (HX g A Hg EA) as HC.
  assert (HC' : forall i j, (i < 2)%nat -> (j < 2)%nat ->
    A i 0%nat * X 0%nat j + A i 1%nat * X 1%nat j = X i 0%nat * A 0%nat j + X i 1%nat * A 1%nat j).
  { intros i j Hi Hj; specialize (HC i j Hi Hj); unfold mmul in HC; cbn [sumn] in HC; lra. }
  pose proof (HC' 0%nat 0%nat ltac:(lia) ltac:(lia)) as C00.
  pose proof (HC' 0%nat 1%nat ltac:(lia) ltac:(lia)) as C01.
  rewrite !MA in C00, C01 by lia; unfold mat2, rsign in C00, C01; cbn [Z.eqb] in C00, C01.
  set (s := sin (IZR k * th G g)) in *; set (c := cos (IZR k * th G g)) in *.
  assert (E1 : X 1%nat 1%nat = X 0%nat 0%nat).
  { apply Rmult_eq_reg_l with s; [lra|exact Hs]. }
  assert (E2 : X 0%nat 1%nat = - X 1%nat 0%nat).
  { apply Rmult_eq_reg_l with s; [lra|exact Hs]. }
  split; [exact E1|split; [exact E2|]].
  intros HF; destruct (pure_flip G HG HF) as (h & Hh & Hf1 & Ht).
  destruct (Hr h Hh) as (B & EB & MB & _); cbn [kdim kmat] in MB; rewrite Hf1, Ht in MB.
  specialize (HX h B Hh EB 0%nat 1%nat ltac:(lia) ltac:(lia)); unfold mmul in HX; cbn [sumn] in HX.
  rewrite !MB in HX by lia; unfold mat2, rsign in HX; cbn [Z.eqb] in HX.
  rewrite Rmult_0_r, sin_0, cos_0 in HX; lra.
Qed.

Theorem endomorphisms : forall G id r, pvalid G -> irrep_ok G id -> p_irrep G id = Ret r ->
  spans_commutant (pmember G) (ir_size r) (ir_rep r) (endomorphism_basis r) /\
  irreducible (pmember G) (ir_size r) (ir_rep r).
Proof.
  intros G id r HG Hid E; destruct (p_irrep_kind G id HG Hid) as (r' & E' & A); rewrite E in E'; apply Ret_inj in E'; subst r'.
  destruct (irrep_kind G id) as [s k|k] eqn:HK; pose proof A as (Hok & _ & Es & _ & Ec & _ & Hr).
  - cbn [kdim] in *; rewrite Es; unfold endomorphism_basis.
    replace (ir_complex r) with false by (rewrite Ec; destruct G as [[?|?]| |]; reflexivity).
    split; [split|].
    + intros X; split.
      * intros _; exists [X 0%nat 0%nat]; split; [reflexivity|]; m11; cbn [lincomb]; unfold madd, mscal, mzero, mid; cbn; ring.
      * intros ([|c [|]] & L & HX); try discriminate L; intros g B Hg EB; m11; ring.
    + intros [|c [|]] L HX; try discriminate L; repeat constructor.
      specialize (HX 0%nat 0%nat ltac:(lia) ltac:(lia)); cbn [lincomb] in HX; unfold madd, mscal, mzero, mid in HX; cbn in HX; lra.
    + split; [lia|]; intros P HI _ _; specialize (HI 0%nat 0%nat ltac:(lia) ltac:(lia)); unfold mmul in HI; cbn [sumn] in HI.
      assert (D : P 0%nat 0%nat = 0 \/ P 0%nat 0%nat - 1 = 0) by (apply Rmult_integral; lra).
      destruct D as [D|D]; [left|right]; m11; unfold mzero; lra.
  - cbn [kdim] in Es; rewrite Es; unfold endomorphism_basis; rewrite Es.
    replace (ir_complex r) with (negb (has_flips G)) by (rewrite Ec; destruct G as [[?|?]| |]; reflexivity).
    assert (C2 := commuting2 G id r k).
    assert (Comm : forall a b X, (has_flips G = true -> b = 0) ->
      X 0%nat 0%nat = a -> X 1%nat 1%nat = a -> X 1%nat 0%nat = b -> X 0%nat 1%nat = - b ->
      forall g B, pmember G g -> ir_rep r g = Ret (2%nat, B) -> meq 2 2 (mmul 2 B X) (mmul 2 X B)).
    { intros a b X Hb X00 X11 X10 X01 g B Hg EB; destruct (Hr g Hg) as (B' & EB' & MB & _).
      rewrite EB in EB'; apply Ret_inj in EB'; injection EB' as <-; cbn [kdim kmat] in MB.
      assert (HF : b = 0 \/ rsign (fl G g) = 1).
      { destruct (has_flips G) eqn:HF; [left; auto|right].
        destruct G as [[N|N]| |]; try discriminate HF; unpack; reflexivity. }
      m22; rewrite ?X00, ?X11, ?X10, ?X01, !MB by lia; unfold mat2;
        destruct HF as [-> | ->]; ring. }
    split; [split|].
    + intros X; split.
      * intros HX; destruct (C2 X HG Hid HK A HX) as (E1 & E2 & E3); destruct (has_flips G) eqn:HF; cbn [negb].
        -- exists [X 0%nat 0%nat]; split; [reflexivity|]; rewrite E3 in E2 by reflexivity.
           m22; cbn [lincomb]; unfold madd, mscal, mzero, mid; cbn; rewrite ?E1, ?E2, ?E3 by reflexivity; ring.
        -- exists [X 0%nat 0%nat; X 1%nat 0%nat]; split; [reflexivity|].
           m22; cbn [lincomb]; unfold madd, mscal, mzero, kron, mat2, mid; cbn; rewrite ?E1, ?E2; ring.
      * intros (cs & L & HX); destruct (has_flips G) eqn:HF; cbn [negb] in *.
        -- destruct cs as [|a [|]]; try discriminate L; cbn [lincomb] in HX.
           apply (Comm a 0); [reflexivity|..]; rewrite HX by lia; unfold madd, mscal, mzero, mid; cbn; ring.
        -- destruct cs as [|a [|b [|]]]; try discriminate L; cbn [lincomb] in HX.
           apply (Comm a b); [discriminate|..]; rewrite HX by lia; unfold madd, mscal, mzero, kron, mat2, mid; cbn; ring.
    + intros cs L HX; pose proof (HX 0%nat 0%nat ltac:(lia) ltac:(lia)) as H0; pose proof (HX 1%nat 0%nat ltac:(lia) ltac:(lia)) as H1.
      destruct (has_flips G) eqn:HF; cbn [negb] in *.
      * destruct cs as [|a [|]]; try discriminate L; cbn [lincomb] in *; unfold madd, mscal, mzero, mid in *; cbn in *; repeat constructor; lra.
      * destruct cs as [|a [|b [|]]]; try discriminate L; cbn [lincomb] in *; unfold madd, mscal, mzero, kron, mat2, mid in *; cbn in *; repeat constructor; lra.
    + split; [lia|]; intros P HI HS HC; destruct (C2 P HG Hid HK A HC) as (E1 & E2 & _).
      pose proof (HS 0%nat 1%nat ltac:(lia) ltac:(lia)) as S01; unfold mtr in S01.
      assert (Z10 : P 1%nat 0%nat = 0) by lra.
      specialize (HI 0%nat 0%nat ltac:(lia) ltac:(lia)); unfold mmul in HI; cbn [sumn] in HI.
      rewrite E2, Z10 in HI.
      assert (D : P 0%nat 0%nat = 0 \/ P 0%nat 0%nat - 1 = 0) by (apply Rmult_integral; lra).
      destruct D as [D|D]; [left|right]; m22; unfold mzero; lra.
Qed.
