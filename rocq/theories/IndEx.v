(** The representation of Z/2 induced from the trivial subgroup. *)
From Coq Require Import Reals ZArith Bool List Lia Lra.
From Verif Require Import LibRes LibList LibMat LibMatS LibTrig FinGroupModel PlanarModel SpecGroup SpecRep ParamModel ParamProofs IrrepModel RepModel SpecRepr RepProofs RepThms
  RegModel SpecReg RegProofs IndModel SpecInd IndProofs IndThms SpecDis DisEx SpecSchur SchurProofs SchurInd IndFinModel SpecFinGroup SpecPlanar SpecIrrep IndPlanar.
Import ListNotations.
Open Scope R_scope.

Lemma one_described : forall T (mem : T -> Prop) (rho : girrep T) x0, gi_size rho = 1%nat -> gi_sosc rho = 1%nat -> gi_endo rho = [mid] ->
  mem x0 -> (forall g A, gi_rep rho g = Ret (1%nat, A) -> True) -> described mem rho.
Proof.
  intros T mem rho x0 E1 E2 E3 _ _; unfold described; rewrite E1, E2, E3; split; [|split; [|reflexivity]].
  - split.
    + intros X; split.
      * intros _; exists [X 0%nat 0%nat]; split; [reflexivity|]; intros i j Hi Hj; replace i with 0%nat by lia; replace j with 0%nat by lia.
        cbn [lincomb]; unfold madd, mscal, mzero, mid; cbn; ring.
      * intros (cs & _ & HX) g A _ _ i j Hi Hj; replace i with 0%nat by lia; replace j with 0%nat by lia; unfold mmul; cbn [sumn]; ring.
    + intros [|c [|]] L HX; try discriminate L; repeat constructor.
      specialize (HX 0%nat 0%nat ltac:(lia) ltac:(lia)); cbn [lincomb] in HX; unfold madd, mscal, mzero, mid in HX; cbn in HX; lra.
  - split.
    + exists mid, []; split; reflexivity.
    + repeat constructor; rewrite ?tr_mid, mid_l; reflexivity.
    + repeat constructor.
    + intros F j [<-|[]] Hj; unfold mid; destruct (Nat.eqb 0 j); lra.
Qed.

Definition toy_inducible : list Z -> Prop := inducible (fun _ => True) toy_op (fun a : bool => Ret a) false (fun _ : unit => True)
  toy_incl toy_irrG toy_irrH toy_restrict.

Lemma toy_full_irreps : forall k, toy_inducible [k].
Proof.
  intros k; destruct (toy_irreps k) as (rho & E1 & E2 & E3 & E4 & E5); exists rho.
  pose proof E1 as E1'; cbn in E1'; apply Ret_inj in E1'.
  split; [exact E1|split; [exact E2|split; [exact E3|split; [exact E4|split]]]].
  - subst rho; apply (one_described _ _ _ false); auto.
  - intros r Er; split; [exact (E5 r Er)|]; subst rho; cbn in Er; apply Ret_inj in Er; subst r.
    split; cbn [toy_g gi_size gi_endo repr_of_irrep r_cob r_inv].
    + split; rewrite ?tr_mid, mid_l; reflexivity.
    + intros E i j [<-|[]] Hi Hj; replace i with 0%nat by lia; replace j with 0%nat by lia; unfold mmul, mid; cbn; right; lra.
Qed.

Lemma toy_disjoint : pairwise_disjoint (fun _ => True) toy_irrG [[0%Z]; [1%Z]].
Proof.
  repeat constructor; intros rho rho' E E' X HX; cbn in E, E'; apply Ret_inj in E, E'; subst; cbn [toy_g gi_size gi_rep] in *.
  specialize (HX true _ _ I eq_refl eq_refl 0%nat 0%nat ltac:(lia) ltac:(lia)); unfold mmul, toy_sign in HX; cbn in HX.
  intros i j Hi Hj; replace i with 0%nat by lia; replace j with 0%nat by lia; unfold mzero; lra.
Qed.

Lemma toy_h_described : described (fun _ : unit => True) toy_h.
Proof. apply (one_described _ _ _ tt); auto. Qed.

Lemma toy_induced : exists comp linv r, correct_components comp /\ correct_inverse linv /\
  induced_representation toy_irrG toy_irrH toy_restrict comp linv toy_same (Some 2%nat)
    [[0%Z]; [1%Z]] toy_h [false; true] = Ret r /\
  exists A, r_fun r true = Ret (2%nat, A) /\ A 0%nat 1%nat = 1 /\ A 0%nat 0%nat = 0.
Proof.
  destruct inverse_exists as (linv & Hl), components_exist as (comp & Hc); exists comp, linv.
  destruct (induced_full (fun _ => True) toy_op (fun a : bool => Ret a) false (fun _ : unit => True) (fun _ _ => Ret tt) (fun _ => Ret tt) tt
    toy_incl toy_irrH toy_restrict comp toy_h [false; true] toy_group)
    with (irrG := toy_irrG) (linv := linv) (same := toy_same) (index := Some 2%nat) (ids := [[0%Z]; [1%Z]]) (ids' := [[0%Z]; [1%Z]]) (cob := toy_cob)
    (cobi := mtr toy_cob) as [_ X].
  - split; try (intros; eexists; split; [reflexivity|exact I]); auto; intros []; intros; reflexivity.
  - exact toy_embedding.
  - exact toy_transversal.
  - split; cbn [toy_h gi_rep gi_size].
    + intros; eexists; split; [reflexivity|]; split; intros i j Hi Hj; unfold mmul, mtr; cbn [sumn];
      replace i with 0%nat by lia; replace j with 0%nat by lia; cbn; lra.
    + eexists; split; [reflexivity|]; apply meq_refl.
    + intros; eexists _, _, _, _; repeat split; intros i j Hi Hj; unfold mmul; cbn [sumn];
      replace i with 0%nat by lia; replace j with 0%nat by lia; cbn; lra.
    + intros; eexists _, _, _; repeat split; intros i j Hi Hj; replace i with 0%nat by lia; replace j with 0%nat by lia; reflexivity.
  - reflexivity.
  - cbn; lia.
  - exact toy_h_described.
  - intros id x h b E _ Eb; destruct id as [|[| |] [|]]; cbn in E; try discriminate E; apply Ret_inj in E; subst x; cbn in Eb;
      apply Ret_inj in Eb; subst b; reflexivity.
  - exact Hc.
  - exact Hl.
  - constructor; [apply toy_full_irreps|constructor; [apply toy_full_irreps|constructor]].
  - exact toy_disjoint.
  - apply toy_build.
  - destruct (X toy_sharp) as (r & Er & _ & _ & _ & Hr).
    exists r; split; [exact Hc|split; [exact Hl|split; [exact Er|]]]; destruct (Hr true I) as (A & EA & _ & IV); exists A; split; [exact EA|].
    unfold induced_value in IV; cbn [gi_size toy_h] in IV; split.
    + refine (proj1 (IV 0%nat 1%nat false true false eq_refl eq_refl eq_refl) tt false mid I eq_refl eq_refl eq_refl 0%nat 0%nat _ _); lia.
    + refine (proj2 (IV 0%nat 0%nat false false true eq_refl eq_refl eq_refl) _ 0%nat 0%nat _ _); try lia.
      intros (h & k & _ & E1 & E2); apply Ret_inj in E1; subst k; discriminate E2.
Qed.

(** The same inside the planar groups: C_2 over C_1. *)
Definition c2_same (a b : pval) : res bool :=
  match a, b with VF (VC x), VF (VC y) => Ret (Z.eqb x y) | _, _ => Raise end.

Lemma c2_restrict : forall linv k, correct_inverse linv -> (k = 0 \/ k = 1)%Z ->
  exists d, fin_restrict linv (Cyc 2) (Cyc 1) (IdC 1) [k] = Ret d /\ r_irreps d = [[0%Z]] /\ meq 1 1 (r_cob d) mid.
Proof.
  intros linv k Hl Hk; destruct Hk as [-> | ->];
  destruct (mk_repr_eq (p_irr (Fin (Cyc 1))) linv Hl [[0%Z]] 1 (mmul 1 mid (bdiag [(1%nat, mid)])) None
    [girrep_of {| ir_id := [0%Z]; ir_size := 1; ir_complex := false; ir_freq := 0; ir_flip := None;
       ir_rep := build_irrep_cn 1 0; ir_char := build_char_cn 1 0 |}]) as (i & _ & _ & Ei); try reflexivity; try lia.
  1,3: cbn [good_inv]; exists mid; split; rewrite ?mid_l; intros a b Ha Hb; replace a with 0%nat by lia; replace b with 0%nat by lia;
      unfold mmul; cbn; unfold mid; cbn; ring.
  all: eexists; split; [etransitivity; [|exact Ei]; reflexivity|split; [reflexivity|]].
  all: cbn [r_cob]; intros a b Ha Hb; replace a with 0%nat by lia; replace b with 0%nat by lia; unfold mmul; cbn; unfold mid; cbn; ring.
Qed.

Definition c1_trivial : girrep pval := girrep_of {| ir_id := [0%Z]; ir_size := 1; ir_complex := false; ir_freq := 0; ir_flip := None;
  ir_rep := build_irrep_cn 1 0; ir_char := build_char_cn 1 0 |}.
Definition c2_irrep (k : Z) : girrep pval := girrep_of {| ir_id := [k]; ir_size := 1; ir_complex := false; ir_freq := k; ir_flip := None;
  ir_rep := build_irrep_cn 2 k; ir_char := build_char_cn 2 k |}.

Lemma c2_kernel : forall linv comp k, correct_inverse linv -> (k = 0 \/ k = 1)%Z ->
  exists B, dirac_kernel_ft (p_irr (Fin (Cyc 1))) (fin_restrict linv (Cyc 2) (Cyc 1) (IdC 1)) comp (c2_irrep k) c1_trivial = Ret [B] /\
    B 0%nat 0%nat = 1.
Proof.
  intros linv comp k Hl Hk; destruct (c2_restrict linv k Hl Hk) as (d & Ed & Ei & Ec).
  assert (N : nonnull c1_trivial = [0%nat]).
  { unfold nonnull; cbn [c1_trivial girrep_of endomorphism_basis ir_complex ir_size gi_size gi_endo seq filter map fold_right].
    replace (negb (Rleb (mid 0%nat 0%nat ^ 2 + 0) (/ 10 ^ 9))) with true; [reflexivity|].
    symmetry; apply negb_true_iff, Rleb_false; cbn; lra. }
  eexists; split.
  - unfold dirac_kernel_ft; cbn [c2_irrep girrep_of gi_id ir_id]; rewrite Ed; cbn [bind]; rewrite Ei; cbn [psi_slices].
    change (p_irr (Fin (Cyc 1)) [0%Z]) with (Ret c1_trivial); cbn [bind].
    destruct (list_eq_dec Z.eq_dec [0%Z] (gi_id c1_trivial)) as [_|X]; [|exfalso; apply X; reflexivity].
    rewrite N; cbn [length]; change (gi_sosc c1_trivial) with 1%nat; cbn [Nat.eqb assert_ bind map app].
    unfold select; change (gi_sosc (girrep_of _)) with 1%nat; cbn [Nat.ltb Nat.leb bind map snd]; reflexivity.
  - cbn; unfold mmul; cbn; rewrite (Ec 0%nat 0%nat) by lia; unfold o_col; cbn; unfold mid; cbn; ring.
Qed.

Definition c2_reps : list pval := [VF (VC 0); VF (VC 1)].
Definition c2_col (v0 v1 : R) (row : nat) : R := (match row with 0%nat => v0 | _ => v1 end) / sqrt 2.

Lemma c2_build : forall linv comp, correct_inverse linv -> exists ids' cob cobi,
  build_induced (p_irr (Fin (Cyc 2))) (p_irr (Fin (Cyc 1))) (fin_restrict linv (Cyc 2) (Cyc 1) (IdC 1)) comp c2_same (Some 2%nat)
    (built_irreps (Cyc 2)) c1_trivial c2_reps = Ret (ids', cob, cobi) /\ ids' = [[0%Z]; [1%Z]] /\ sharp 2 cob.
Proof.
  intros linv comp Hl.
  assert (Sq : sqrt 2 * sqrt 2 = 2) by (apply sqrt_sqrt; lra).
  assert (Sp : 0 < sqrt 2) by (apply sqrt_lt_R0; lra).
  assert (St : forall k v0 v1, (k = 0 \/ k = 1)%Z -> v0 * v0 = 1 -> v1 * v1 = 1 ->
    (exists A0 A1, gi_rep (c2_irrep k) (VF (VC 0)) = Ret (1%nat, A0) /\ A0 0%nat 0%nat = v0 /\
       gi_rep (c2_irrep k) (VF (VC 1)) = Ret (1%nat, A1) /\ A1 0%nat 0%nat = v1) ->
    exists c, induced_step (p_irr (Fin (Cyc 1))) (fin_restrict linv (Cyc 2) (Cyc 1) (IdC 1)) comp c1_trivial c2_reps 2 (c2_irrep k) =
      Ret ([c2_irrep k], [c]) /\ forall i, (i < 2)%nat -> c i = c2_col v0 v1 i).
  { intros k v0 v1 Hk E0 E1 (A0 & A1 & R0 & V0 & R1 & V1); destruct (c2_kernel linv comp k Hl Hk) as (B & EB & VB).
    eexists; split.
    - unfold induced_step; rewrite EB; cbn [bind mapM c2_reps]; rewrite R0, R1; cbn [bind snd].
      apply assert_Ret; split; [|reflexivity]; apply allclose_meq; cbn [ift_columns flat_map map app length].
      change (gi_size (c2_irrep k)) with 1%nat; change (gi_size c1_trivial) with 1%nat; cbn [length seq map app].
      intros i j Hi Hj; replace i with 0%nat by lia; replace j with 0%nat by lia; unfold mmul, mtr, columns_mat; cbn [sumn nth Nat.div Nat.modulo].
      cbn; rewrite VB, V0, V1, sqrt_1; unfold mid; cbn; replace (1 + 1) with 2 by ring; field_simplify; [|lra].
      replace (sqrt 2 ^ 2) with 2 by (cbn; lra); replace (v0 ^ 2) with 1 by (cbn; lra); replace (v1 ^ 2) with 1 by (cbn; lra); field.
    - intros i Hi; unfold c2_col; change (gi_size (c2_irrep k)) with 1%nat; change (gi_size c1_trivial) with 1%nat.
      destruct i as [|[|]]; [| |lia]; cbn; unfold mmul; cbn; rewrite VB, ?V0, ?V1, sqrt_1; replace (1 + 1) with 2 by ring; field; lra. }
  destruct (St 0%Z 1 1) as (c0 & S0 & C0); [left; reflexivity|ring|ring|do 2 eexists; repeat split; reflexivity|].
  destruct (St 1%Z 1 (-1)) as (c1 & S1 & C1); [right; reflexivity|ring|ring| |].
  { do 2 eexists; repeat split; cbn; unfold mat1; [rewrite <- cos_0|rewrite <- cos_PI]; f_equal; field. }
  eexists _, _, _; split.
  - unfold build_induced; change (gi_size c1_trivial) with 1%nat; cbn [c2_reps length Nat.eqb assert_ bind seq combine mapM fst snd c2_same negb eqb Z.eqb].
    change (mapM (p_irr (Fin (Cyc 2))) (built_irreps (Cyc 2))) with (Ret [c2_irrep 0; c2_irrep 1]); cbn [bind mapM Nat.mul Nat.add].
    fold c2_reps; rewrite S0, S1; cbn [bind flat_map fst snd app length Nat.eqb assert_].
    apply assert_Ret; split; [|apply assert_Ret; split; [|reflexivity]]; apply allclose_meq;
      intros i j Hi Hj; unfold mmul, mtr, columns_mat; cbn [sumn];
      destruct i as [|[|]]; try lia; destruct j as [|[|]]; try lia; cbn [nth]; rewrite ?C0, ?C1 by lia; unfold c2_col, mid; cbn;
      field_simplify; try lra; replace (sqrt 2 ^ 2) with 2 by (cbn; lra); field.
  - split; [reflexivity|]; right; apply not_true_is_false; intros E; rewrite allclose_true in E.
    specialize (E 0%nat 1%nat ltac:(lia) ltac:(lia)); unfold columns_mat, mid in E; cbn [nth Nat.eqb] in E.
    rewrite C1 in E by lia; unfold c2_col in E.
    assert (H4 : / 2 < / sqrt 2) by (apply Rinv_lt_contravar; nra).
    unfold np_isclose in E; apply Rleb_true in E; rewrite Rminus_0_r, Rabs_pos_eq, Rabs_R0 in E by (unfold Rdiv; lra); unfold Rdiv in E; lra.
Qed.

Lemma c2_transversal : transversal (pmember (Fin (Cyc 2))) (pmul (Fin (Cyc 2))) (pmember (Fin (Cyc 1)))
  (fin_incl {| sg_group := Cyc 1; sg_incl := parent_c 2 1; sg_restr := child_c 2 1 |}) c2_reps.
Proof.
  split; [repeat constructor; cbn; intuition congruence|split; [repeat constructor; cbn; lia|]].
  intros [[x|]| |] Hx; try contradiction; cbn in Hx.
  exists (VF (VC x)); split; [unfold c2_reps; cbn; assert (x = 0 \/ x = 1)%Z as [-> | ->] by lia; auto|split].
  - exists (VF (VC 0)), (VF (VC 0)); split; [cbn; lia|split; [reflexivity|]]; assert (x = 0 \/ x = 1)%Z as [-> | ->] by lia; reflexivity.
  - intros r' Hr (h & g & Hh & E & E').
    destruct h as [[h|]| |]; try contradiction; cbn in Hh; assert (h = 0)%Z as -> by lia; cbn in E; apply Ret_inj in E; subst g.
    assert (x = 0 \/ x = 1)%Z as [-> | ->] by lia; destruct Hr as [<-|[<-|[]]]; cbn in E'; auto; discriminate E'.
Qed.

Lemma c2_induced : exists comp linv r, correct_components comp /\ correct_inverse linv /\
  induced_representation (p_irr (Fin (Cyc 2))) (p_irr (Fin (Cyc 1))) (fin_restrict linv (Cyc 2) (Cyc 1) (IdC 1)) comp linv c2_same
    (Some 2%nat) (built_irreps (Cyc 2)) c1_trivial c2_reps = Ret r /\ r_irreps r = [[0%Z]; [1%Z]] /\
  exists A, r_fun r (VF (VC 1)) = Ret (2%nat, A) /\ A 0%nat 1%nat = 1 /\ A 0%nat 0%nat = 0.
Proof.
  destruct inverse_exists as (linv & Hl), components_exist as (comp & Hc); exists comp, linv.
  destruct (c2_build linv comp Hl) as (ids' & cob & cobi & Eb & Ei & Hs).
  assert (Dc : documented (Cyc 2) (IdC 1)) by (split; [lia|exists 2%Z; reflexivity]).
  destruct (induced_planar (Cyc 2) (IdC 1) _ linv eq_refl Dc eq_refl Hl comp c1_trivial c2_same (Some 2%nat) c2_reps ids' cob cobi [0%Z] Hc
    (sharp_simple (Cyc 2) (IdC 1) eq_refl Dc I)) as [_ X]; [cbn; lia|reflexivity|exact c2_transversal|exact Eb|].
  destruct (X Hs) as (r & Er & _ & _ & Ir & V); exists r; split; [exact Hc|split; [exact Hl|split; [exact Er|split; [rewrite Ir; exact Ei|]]]].
  destruct (V (VF (VC 1))) as (A & EA & _ & IV); [cbn; lia|]; exists A; split; [exact EA|].
  unfold induced_value in IV; split.
  - destruct (IV 0%nat 1%nat (VF (VC 0)) (VF (VC 1)) (VF (VC 0)) eq_refl eq_refl eq_refl) as [P _].
    exact (P (VF (VC 0)) (VF (VC 0)) mid ltac:(cbn; lia) eq_refl eq_refl eq_refl 0%nat 0%nat ltac:(cbn; lia) ltac:(cbn; lia)).
  - destruct (IV 0%nat 0%nat (VF (VC 0)) (VF (VC 0)) (VF (VC 1)) eq_refl eq_refl eq_refl) as [_ P].
    apply (P ltac:(intros (h & k & Hh & E & E'); destruct h as [[h|]| |]; try contradiction; cbn in Hh; assert (h = 0)%Z as -> by lia;
      cbn in E; apply Ret_inj in E; subst k; discriminate E') 0%nat 0%nat); cbn; lia.
Qed.
