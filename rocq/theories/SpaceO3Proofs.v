(** The subgroups of O(3): moving by the adjoint, and each kind of subgroup. *)
From Coq Require Import Reals ZArith Bool List Lia Lra.
From Verif Require Import LibRes LibMat LibTrig FinGroupModel SpecFinGroup SpecGroup ParamModel ParamProofs
  PlanarModel SpecPlanar PlanarProofs SpaceModel SpecSpace SpaceProofs SpaceTol SpaceThms SpaceSub SpaceO3Model SpecSpaceO3.
Import ListNotations.
Open Scope R_scope.

(** ** Moving by the adjoint *)

Definition omoved (adj g : oval) : oval := omul (omul adj g) (oconj adj).

Lemma ounit_moved : forall adj g, ounit adj -> ounit g -> ounit (omoved adj g).
Proof. intros adj g Ha Hg; unfold omoved; repeat apply ounit_mul; try apply ounit_conj; assumption. Qed.

Lemma o3_to_adj_unit : forall adj g, ounit adj -> ounit g -> o3_to_adj adj g = Ret (omoved adj g).
Proof.
  intros adj g Ha Hg; unfold o3_to_adj; rewrite o3_mul_unit, o3_inv_unit by assumption; cbn [bind].
  apply o3_mul_unit; [apply ounit_mul|apply ounit_conj]; assumption.
Qed.
Lemma o3_from_adj_unit : forall adj g, ounit adj -> ounit g ->
  o3_from_adj adj g = Ret (omul (omul (oconj adj) g) adj) /\ ounit (omul (omul (oconj adj) g) adj).
Proof.
  intros adj g Ha Hg; unfold o3_from_adj; rewrite o3_inv_unit by assumption; cbn [bind].
  rewrite o3_mul_unit by (try apply ounit_conj; assumption); cbn [bind].
  rewrite o3_mul_unit by (try apply ounit_mul; try apply ounit_conj; assumption); split; [reflexivity|].
  repeat apply ounit_mul; try apply ounit_conj; assumption.
Qed.

Lemma conj_omat : forall q r, ounit q -> ounit r ->
  meq 3 3 (omat (omul (omul (oconj q) r) q)) (conjugate (omat q) (omat r)).
Proof.
  intros q r Hq Hr; pose proof (ounit_conj q Hq) as Hc; pose proof (ounit_mul _ _ Hc Hr) as Hm.
  eapply meq_trans3; [apply omat_mul; assumption|].
  eapply meq_trans3; [apply mmul3; [apply omat_mul; assumption|apply meq_refl3]|].
  eapply meq_trans3; [apply mmul3_assoc|]; apply mmul3; [apply omat_conj|apply meq_refl3].
Qed.
Lemma unconj_omat : forall q r, ounit q -> ounit r ->
  meq 3 3 (omat (omoved q r)) (mmul 3 (omat q) (mmul 3 (omat r) (mtr (omat q)))).
Proof.
  intros q r Hq Hr; pose proof (ounit_conj q Hq) as Hc; pose proof (ounit_mul _ _ Hq Hr) as Hm.
  eapply meq_trans3; [apply omat_mul; assumption|].
  eapply meq_trans3; [apply mmul3; [apply omat_mul; assumption|apply omat_conj]|]; apply mmul3_assoc.
Qed.

Lemma omoved_matrix : forall adj g M, ounit adj -> ounit g ->
  meq 3 3 (omat g) (conjugate (omat adj) M) -> meq 3 3 (omat (omoved adj g)) M.
Proof.
  intros adj g M Ha Hg H; eapply meq_trans3; [apply unconj_omat; assumption|].
  eapply meq_trans3; [|apply (unconj (omat adj) M), omat_orth, Ha].
  apply mmul3; [apply meq_refl3|]; apply mmul3; [exact H|apply meq_refl3].
Qed.

Lemma omoved_back : forall adj g, ounit adj -> ounit g ->
  meq 3 3 (omat g) (conjugate (omat adj) (omat (omoved adj g))).
Proof.
  intros adj g Ha Hg; eapply meq_trans3; [|apply conj_omat; [exact Ha|apply ounit_moved; assumption]].
  unfold omoved.
  replace (omul (omul (oconj adj) (omul (omul adj g) (oconj adj))) adj)
    with (omul (omul (omul (oconj adj) adj) g) (omul (oconj adj) adj)) by (rewrite !omul_assoc; reflexivity).
  rewrite omul_conj_l, omul_id_l, omul_id_r by assumption; apply meq_refl3.
Qed.

Lemma omoved_error : forall adj g N eps, ounit adj -> ounit g -> 0 <= eps ->
  (forall i j, (i < 3)%nat -> (j < 3)%nat -> Rabs (omat (omoved adj g) i j - N i j) <= eps) ->
  forall i j, (i < 3)%nat -> (j < 3)%nat ->
    Rabs (omat g i j - conjugate (omat adj) N i j) <= 9 * eps.
Proof.
  intros adj g N eps Ha Hg He H i j Hi Hj; rewrite (omoved_back adj g Ha Hg i j Hi Hj).
  apply conj_error; try assumption; apply omat_orth; exact Ha.
Qed.

(** ** Assembling a subgroup from its maps in the moved frame *)

Lemma framed : forall adj G M (s : ssub oval) (restr : oval -> res (option sval)), ounit adj ->
  s3_group s = G ->
  (forall h k hk, smember G h -> smember G k -> smul G h k = Ret hk ->
     smember G hk /\ meq 3 3 (M hk) (mmul 3 (M h) (M k))) ->
  (forall h k, smember G h -> smember G k -> meq 3 3 (M h) (M k) -> same_elem h k) ->
  (forall h, smember G h -> exists g, s3_incl s h = o3_from_adj adj g /\ ounit g /\ meq 3 3 (omat g) (M h)) ->
  (forall g, ounit g -> s3_restr s g = restr (omoved adj g)) ->
  (forall u, ounit u -> exists o, restr u = Ret o) ->
  (forall h u, smember G h -> ounit u -> meq 3 3 (omat u) (M h) ->
     exists k, restr u = Ret (Some k) /\ smember G k /\ same_elem k h) ->
  (forall u k, ounit u -> restr u = Ret (Some k) -> smember G k /\
     forall i j, (i < 3)%nat -> (j < 3)%nat -> Rabs (omat u i j - M k i j) <= 1 / 10000000) ->
  space_subgroup ounit omat (omat adj) G M s.
Proof.
  intros adj G M s restr Ha HG Hom Inj Inc Res Tot Exa Snd; apply build; try assumption.
  - apply omat_orth; exact Ha.
  - intros h Hh; destruct (Inc h Hh) as (g & -> & U & E).
    destruct (o3_from_adj_unit adj g Ha U) as [-> V]; eexists; split; [reflexivity|]; split; [exact V|].
    eapply meq_trans3; [apply conj_omat; assumption|]; apply conj3; [apply meq_refl3|exact E].
  - intros g Hg; rewrite Res by exact Hg; apply Tot, ounit_moved; assumption.
  - intros h g Hh Hg E; rewrite Res by exact Hg; apply Exa; [exact Hh|apply ounit_moved; assumption|].
    apply omoved_matrix; assumption.
  - intros g k Hg E; rewrite Res in E by exact Hg.
    destruct (Snd _ _ (ounit_moved adj g Ha Hg) E) as [K B]; split; [exact K|]; intros i j Hi Hj.
    eapply Rle_trans; [apply (omoved_error adj g _ (1 / 10000000) Ha Hg ltac:(lra) B); assumption|].
    replace (/ 10 ^ 6) with (1 / 1000000) by field; lra.
Qed.

(** ** Splitting a matrix into inversion and rotation *)

Lemma omat_eq : forall f q, omat (f, q) = mscal (osign f) (as_matrix q).
Proof. reflexivity. Qed.

Lemma omat_pair : forall f q M, meq 3 3 (as_matrix q) M -> meq 3 3 (omat (f, q)) (mscal (osign f) M).
Proof. intros f q M E i j Hi Hj; unfold omat, mscal; cbn [fst snd]; rewrite (E i j Hi Hj); reflexivity. Qed.

Lemma split_elem : forall u i q, ounit u -> (i = 0 \/ i = 1)%Z -> unit q ->
  meq 3 3 (omat u) (mscal (osign i) (as_matrix q)) ->
  fst u = i /\ exists s, s * s = 1 /\ snd u = qscal s q.
Proof.
  intros u i q Hu Hi Hq E; destruct (omat_inj u (i, q) Hu (conj Hi Hq) E) as [F M]; cbn [fst snd] in *.
  split; [exact F|]; apply sign_quat, mat_inj; try assumption; apply Hu.
Qed.

Lemma osign_0 : forall M, meq 3 3 (mscal (osign 0) M) M.
Proof. intros M i j _ _; unfold mscal, osign; cbn; ring. Qed.

Lemma scaled_error : forall i (A B : mat) e r c, Rabs (A r c - B r c) <= e -> Rabs (mscal (osign i) A r c - mscal (osign i) B r c) <= e.
Proof.
  intros i A B e r c H; unfold mscal, osign; destruct (i =? 0)%Z.
  - rewrite !Rmult_1_l; exact H.
  - replace (-1 * A r c - -1 * B r c) with (- (A r c - B r c)) by ring; rewrite Rabs_Ropp; exact H.
Qed.

Lemma fst_eqb_1 : forall u, ounit u -> (fst u =? 1)%Z = negb (fst u =? 0)%Z.
Proof. intros u [[->| ->] _]; reflexivity. Qed.

(** ** SO(3), O(3) *)

Lemma osub_so3 : forall adj, ounit adj ->
  space_subgroup ounit omat (omat adj) GSO3 (o3_matrix (O3Full false))
    {| s3_group := GSO3; s3_incl := so3_to_o3 adj; s3_restr := o3_to_so3 adj |}.
Proof.
  intros adj Ha; apply (framed adj _ _ _ (fun u =>
    if (fst u =? 0)%Z then opt_map EQ (or_none (so3_element (snd u))) else Ret None) Ha); cbn [s3_group s3_incl s3_restr].
  - reflexivity.
  - intros [|p| |] [|q| |] hk Hp Hq E; cbn in Hp, Hq; try contradiction; cbn [smul] in E.
    rewrite so3_mul_unit in E by assumption; cbn in E; apply Ret_inj in E; subst hk; cbn [smember o3_matrix].
    split; [apply unit_mul; assumption|apply mat_mul].
  - intros [|p| |] [|q| |] Hp Hq E; cbn in Hp, Hq; try contradiction; exact E.
  - intros [|p| |] Hp; cbn in Hp; try contradiction; cbn [so3_to_o3].
    assert (U : ounit (0%Z, p)) by (split; [auto|exact Hp]).
    rewrite o3_element_unit by exact U; exists (0%Z, p); split; [reflexivity|]; split; [exact U|].
    eapply meq_trans3; [apply omat_pair, meq_refl3|apply osign_0].
  - intros g Hg; unfold o3_to_so3; rewrite o3_to_adj_unit by assumption; reflexivity.
  - intros u Hu; destruct (fst u =? 0)%Z; [rewrite so3_element_unit by apply Hu|]; cbn; eauto.
  - intros [|p| |] u Hp Hu E; cbn in Hp; try contradiction; cbn [o3_matrix] in E.
    destruct (omat_inj u (0%Z, p) Hu) as [F M]; [split; [auto|exact Hp]| |].
    { eapply meq_trans3; [exact E|]; eapply meq_trans3; [apply meq_sym3, osign_0|apply meq_refl3]. }
    cbn [fst snd] in *; rewrite F; cbn [Z.eqb]; rewrite so3_element_unit by apply Hu.
    eexists; split; [reflexivity|]; split; [apply Hu|exact M].
  - intros u k Hu E; destruct (Z.eqb_spec (fst u) 0) as [F|]; [|discriminate E].
    rewrite so3_element_unit in E by apply Hu; cbn in E; injection E as <-; split; [apply Hu|].
    intros i j Hi Hj; cbn [o3_matrix]; unfold omat, mscal; rewrite F; cbn [Z.eqb].
    rewrite Rmult_1_l, Rminus_diag_eq, Rabs_R0 by reflexivity; lra.
Qed.

Lemma osub_o3 : forall adj, ounit adj ->
  space_subgroup ounit omat (omat adj) GO3 (o3_matrix (O3Full true))
    {| s3_group := GO3;
       s3_incl := fun e => match e with EO e => o3_adjoint_map (oconj adj) e | _ => Raise end;
       s3_restr := fun e => u <- o3_adjoint_map adj e ;; Ret (Some (EO u)) |}.
Proof.
  intros adj Ha; apply (framed adj _ _ _ (fun u => Ret (Some (EO u))) Ha); cbn [s3_group s3_incl s3_restr].
  - reflexivity.
  - intros [?|?|p|? ?] [?|?|r|? ?] hk Hp Hq E; cbn in Hp, Hq; try contradiction; cbn [smul] in E.
    rewrite o3_mul_unit in E by assumption; cbn in E; apply Ret_inj in E; subst hk; cbn [smember o3_matrix].
    split; [apply ounit_mul; assumption|apply omat_mul; assumption].
  - intros [?|?|p|? ?] [?|?|r|? ?] Hp Hq E; cbn in Hp, Hq; try contradiction; exact E.
  - intros [| |p|] Hp; cbn in Hp; try contradiction; exists p; split; [|split; [exact Hp|apply meq_refl3]].
    unfold o3_adjoint_map, o3_from_adj; rewrite (o3_inv_unit (oconj adj)), o3_inv_unit by (try apply ounit_conj; assumption).
    cbn [bind]; replace (oconj (oconj adj)) with adj; [reflexivity|].
    unfold oconj; cbn [fst snd]; rewrite qconj_conj; destruct adj; reflexivity.
  - intros g Hg; unfold o3_adjoint_map; rewrite o3_inv_unit, o3_mul_unit by assumption; cbn [bind].
    rewrite o3_mul_unit by (try apply ounit_mul; try apply ounit_conj; assumption); reflexivity.
  - intros u _; eauto.
  - intros [| |p|] u Hp Hu E; cbn in Hp; try contradiction; eexists; split; [reflexivity|]; split; [exact Hu|exact E].
  - intros u k Hu E; injection E as <-; split; [exact Hu|]; intros i j _ _; cbn [o3_matrix].
    rewrite Rminus_diag_eq, Rabs_R0 by reflexivity; lra.
Qed.

(** ** Planar subgroups of SO(3) *)

Lemma planar_hom : forall G h k hk, planar_like G -> smember (GP G) h -> smember (GP G) k -> smul (GP G) h k = Ret hk ->
  smember (GP G) hk /\ meq 3 3 (base_of G hk) (mmul 3 (base_of G h) (base_of G k)).
Proof.
  intros G [v| | |] [w| | |] hk HG Hv Hw E; cbn in Hv, Hw; try contradiction; cbn [smul] in E.
  destruct (pmul G v w) as [|u] eqn:P; [discriminate E|]; cbn [bind] in E; apply Ret_inj in E; subst hk; cbn.
  apply base_mul; assumption.
Qed.
Lemma planar_inj : forall G h k, planar_like G -> smember (GP G) h -> smember (GP G) k ->
  meq 3 3 (base_of G h) (base_of G k) -> same_elem h k.
Proof.
  intros G [v| | |] [w| | |] HG Hv Hw E; cbn in Hv, Hw; try contradiction; cbn; f_equal.
  apply (base_inj G); assumption.
Qed.

Lemma ounit_pair : forall i q, (i = 0 \/ i = 1)%Z -> unit q -> ounit (i, q).
Proof. intros i q Hi Hq; split; assumption. Qed.

Lemma turn_base : forall G v, cyclic_like G -> pmember G v ->
  meq 3 3 (as_matrix (turn_z (angle_of G v / 2))) (base_matrix G v).
Proof.
  intros G v HG Hv; eapply meq_trans3; [|apply quat_of_base]; rewrite (cyclic_flip G v HG Hv); apply meq_refl3.
Qed.

Lemma omat_rot : forall q M, meq 3 3 (as_matrix q) M -> meq 3 3 (omat (0%Z, q)) M.
Proof. intros q M E; eapply meq_trans3; [apply omat_pair, E|apply osign_0]. Qed.

Lemma omat_rot_inv : forall u q, ounit u -> unit q -> meq 3 3 (omat u) (as_matrix q) ->
  fst u = 0%Z /\ exists s, s * s = 1 /\ snd u = qscal s q.
Proof.
  intros u q Hu Hq E; apply split_elem; auto; eapply meq_trans3; [exact E|apply meq_sym3, osign_0].
Qed.

Lemma omat_rot_error : forall u N e, fst u = 0%Z ->
  (forall i j, (i < 3)%nat -> (j < 3)%nat -> Rabs (as_matrix (snd u) i j - N i j) <= e) ->
  forall i j, (i < 3)%nat -> (j < 3)%nat -> Rabs (omat u i j - N i j) <= e.
Proof.
  intros u N e F B i j Hi Hj; unfold omat, mscal; rewrite F; cbn [Z.eqb]; rewrite Rmult_1_l; apply B; assumption.
Qed.

Lemma osub_cyc : forall G adj, cyclic_like G -> ounit adj ->
  space_subgroup ounit omat (omat adj) (GP G) (base_of G)
    {| s3_group := GP G; s3_incl := so2_to_o3 adj G; s3_restr := o3_to_so2 adj G |}.
Proof.
  intros G adj HG Ha; apply (framed adj _ _ _ (fun u =>
    if (fst u =? 1)%Z then Ret None else opt_map EP (turn_of G (snd u))) Ha); cbn [s3_group s3_incl s3_restr].
  - reflexivity.
  - intros h k hk; apply planar_hom; left; exact HG.
  - intros h k; apply planar_inj; left; exact HG.
  - intros [v| | |] Hv; cbn in Hv; try contradiction; unfold so2_to_o3.
    rewrite turn_quat_eq by assumption; cbn [bind].
    rewrite o3_element_unit by (apply ounit_pair; [auto|apply unit_turn]); cbn [bind].
    eexists; split; [reflexivity|]; split; [apply ounit_pair; [auto|apply unit_turn]|].
    apply omat_rot, turn_base; assumption.
  - intros g Hg; unfold o3_to_so2; rewrite o3_to_adj_unit by assumption; reflexivity.
  - intros u Hu; destruct (fst u =? 1)%Z; [eauto|]; destruct (turn_of_total G (snd u)) as [o ->]; cbn; eauto.
  - intros [v| | |] u Hv Hu E; cbn in Hv; try contradiction; cbn [base_of] in E.
    destruct (omat_rot_inv u (turn_z (angle_of G v / 2)) Hu (unit_turn _)) as (F & s & Hs & ->).
    { eapply meq_trans3; [exact E|apply meq_sym3, turn_base; assumption]. }
    rewrite F; cbn [Z.eqb]; rewrite turn_of_exact by assumption.
    exists (EP v); split; [reflexivity|]; split; [exact Hv|reflexivity].
  - intros u k Hu E; rewrite fst_eqb_1 in E by exact Hu; destruct (Z.eqb_spec (fst u) 0) as [F|]; [|discriminate E].
    cbn [negb] in E; destruct (turn_of G (snd u)) as [|[v|]] eqn:R; try discriminate E.
    cbn in E; injection E as <-; destruct (turn_of_sound G _ v HG (proj2 Hu) R) as [M B]; split; [exact M|].
    apply omat_rot_error; [exact F|]; intros i j Hi Hj; eapply Rle_trans; [apply B; assumption|lra].
Qed.

Lemma osub_dih : forall G adj, dihedral_like G -> ounit adj ->
  space_subgroup ounit omat (omat adj) (GP G) (base_of G)
    {| s3_group := GP G; s3_incl := dih_to_o3 adj G; s3_restr := o3_to_dih adj G |}.
Proof.
  intros G adj HG Ha; apply (framed adj _ _ _ (fun u =>
    if (fst u =? 1)%Z then Ret None else opt_map EP (dih_of G (snd u))) Ha); cbn [s3_group s3_incl s3_restr].
  - reflexivity.
  - intros h k hk; apply planar_hom; right; exact HG.
  - intros h k; apply planar_inj; right; exact HG.
  - intros [v| | |] Hv; cbn in Hv; try contradiction; unfold dih_to_o3.
    rewrite dih_quat_eq by assumption; cbn [bind].
    rewrite o3_element_unit by (apply ounit_pair; [auto|apply unit_plane]); cbn [bind].
    eexists; split; [reflexivity|]; split; [apply ounit_pair; [auto|apply unit_plane]|].
    apply omat_rot, quat_of_base.
  - intros g Hg; unfold o3_to_dih; rewrite o3_to_adj_unit by assumption; reflexivity.
  - intros u Hu; destruct (fst u =? 1)%Z; [eauto|]; destruct (dih_of_total G (snd u)) as [o ->]; cbn; eauto.
  - intros [v| | |] u Hv Hu E; cbn in Hv; try contradiction; cbn [base_of] in E.
    destruct (omat_rot_inv u (plane_quat (flip_of v) (angle_of G v)) Hu (unit_plane _ _)) as (F & s & Hs & ->).
    { eapply meq_trans3; [exact E|apply meq_sym3, quat_of_base]. }
    rewrite F; cbn [Z.eqb]; rewrite dih_of_exact by assumption.
    exists (EP v); split; [reflexivity|]; split; [exact Hv|reflexivity].
  - intros u k Hu E; rewrite fst_eqb_1 in E by exact Hu; destruct (Z.eqb_spec (fst u) 0) as [F|]; [|discriminate E].
    cbn [negb] in E; destruct (dih_of G (snd u)) as [|[v|]] eqn:R; try discriminate E.
    cbn in E; injection E as <-; destruct (dih_of_sound G _ v HG (proj2 Hu) R) as [M B]; split; [exact M|].
    apply omat_rot_error; [exact F|]; intros i j Hi Hj; eapply Rle_trans; [apply B; assumption|lra].
Qed.

(** ** Cylinders *)

Definition cyl_of (G : pgrp) (h : sval) : mat := match h with EC i v => mscal (osign i) (base_matrix G v) | _ => mid end.

Lemma mscal_mul : forall a b A B, meq 3 3 (mscal (a * b) (mmul 3 A B)) (mmul 3 (mscal a A) (mscal b B)).
Proof. intros a b A B i j _ _; unfold mscal, mmul; cbn [sumn]; ring. Qed.

Lemma cyl_hom : forall G h k hk, planar_like G -> smember (GCyl G) h -> smember (GCyl G) k -> smul (GCyl G) h k = Ret hk ->
  smember (GCyl G) hk /\ meq 3 3 (cyl_of G hk) (mmul 3 (cyl_of G h) (cyl_of G k)).
Proof.
  intros G [| | |i v] [| | |j w] hk HG Hv Hw E; cbn in Hv, Hw; try contradiction; cbn [smul] in E.
  destruct Hv as [Hi Hv], Hw as [Hj Hw].
  destruct (pmul G v w) as [|u] eqn:P; [discriminate E|]; cbn [bind] in E; apply Ret_inj in E; subst hk; cbn [smember cyl_of].
  destruct (base_mul G v w u HG Hv Hw P) as [Hu B]; split; [split; [apply inv_add; assumption|exact Hu]|].
  rewrite osign_add by assumption; eapply meq_trans3; [|apply mscal_mul].
  intros a b Ha Hb; unfold mscal at 1 2; rewrite (B a b Ha Hb); reflexivity.
Qed.

Lemma base_quat : forall G v, planar_like G -> pmember G v ->
  exists q, unit q /\ meq 3 3 (as_matrix q) (base_matrix G v).
Proof. intros G v _ _; exists (plane_quat (flip_of v) (angle_of G v)); split; [apply unit_plane|apply quat_of_base]. Qed.

Lemma cyl_inj : forall G h k, planar_like G -> smember (GCyl G) h -> smember (GCyl G) k ->
  meq 3 3 (cyl_of G h) (cyl_of G k) -> same_elem h k.
Proof.
  intros G [| | |i v] [| | |j w] HG Hv Hw E; cbn in Hv, Hw; try contradiction; cbn [cyl_of] in E.
  destruct Hv as [Hi Hv], Hw as [Hj Hw].
  destruct (base_quat G v HG Hv) as (p & Up & Mp), (base_quat G w HG Hw) as (q & Uq & Mq).
  destruct (omat_inj (i, p) (j, q) (conj Hi Up) (conj Hj Uq)) as [F M].
  { eapply meq_trans3; [apply omat_pair, Mp|]; eapply meq_trans3; [exact E|apply meq_sym3, omat_pair, Mq]. }
  cbn [fst snd] in *; subst j; cbn; f_equal; apply (base_inj G); try assumption.
  eapply meq_trans3; [apply meq_sym3, Mp|]; eapply meq_trans3; [exact M|exact Mq].
Qed.

Lemma omat_error : forall u N e,
  (forall i j, (i < 3)%nat -> (j < 3)%nat -> Rabs (as_matrix (snd u) i j - N i j) <= e) ->
  forall i j, (i < 3)%nat -> (j < 3)%nat -> Rabs (omat u i j - mscal (osign (fst u)) N i j) <= e.
Proof. intros u N e B i j Hi Hj; apply (scaled_error (fst u)), B; assumption. Qed.

Lemma pair_inv_01 : forall i x, (i = 0 \/ i = 1)%Z -> pair_inv i x = opt_map (EC i) x.
Proof. intros i x [->| ->]; reflexivity. Qed.

Lemma osub_cyl : forall G adj, cyclic_like G -> ounit adj ->
  space_subgroup ounit omat (omat adj) (GCyl G) (cyl_of G)
    {| s3_group := GCyl G; s3_incl := cyl_to_o3 adj G; s3_restr := o3_to_cyl adj G |}.
Proof.
  intros G adj HG Ha; apply (framed adj _ _ _ (fun u => pair_inv (fst u) (turn_of G (snd u))) Ha);
    cbn [s3_group s3_incl s3_restr].
  - reflexivity.
  - intros h k hk; apply cyl_hom; left; exact HG.
  - intros h k; apply cyl_inj; left; exact HG.
  - intros [| | |i v] Hv; cbn in Hv; try contradiction; destruct Hv as [Hi Hv]; unfold cyl_to_o3.
    rewrite turn_quat_eq by assumption; cbn [bind].
    rewrite o3_element_unit by (apply ounit_pair; [exact Hi|apply unit_turn]); cbn [bind].
    eexists; split; [reflexivity|]; split; [apply ounit_pair; [exact Hi|apply unit_turn]|].
    apply omat_pair, turn_base; assumption.
  - intros g Hg; unfold o3_to_cyl; rewrite o3_to_adj_unit by assumption; reflexivity.
  - intros u Hu; rewrite pair_inv_01 by apply Hu; destruct (turn_of_total G (snd u)) as [o ->]; cbn; eauto.
  - intros [| | |i v] u Hv Hu E; cbn in Hv; try contradiction; destruct Hv as [Hi Hv]; cbn [cyl_of] in E.
    destruct (split_elem u i (turn_z (angle_of G v / 2)) Hu Hi (unit_turn _)) as (F & s & Hs & ->).
    { eapply meq_trans3; [exact E|]; intros r c Hr Hc; unfold mscal; rewrite (turn_base G v HG Hv r c Hr Hc); reflexivity. }
    rewrite F, pair_inv_01, turn_of_exact by assumption.
    exists (EC i v); split; [reflexivity|]; split; [split; assumption|reflexivity].
  - intros u k Hu E; rewrite pair_inv_01 in E by apply Hu.
    destruct (turn_of G (snd u)) as [|[v|]] eqn:R; try discriminate E.
    cbn in E; injection E as <-; destruct (turn_of_sound G _ v HG (proj2 Hu) R) as [M B].
    split; [split; [apply Hu|exact M]|].
    apply omat_error; intros i j Hi Hj; eapply Rle_trans; [apply B; assumption|lra].
Qed.

Lemma osub_fullcyl : forall G adj, dihedral_like G -> ounit adj ->
  space_subgroup ounit omat (omat adj) (GCyl G) (cyl_of G)
    {| s3_group := GCyl G; s3_incl := fullcyl_to_o3 adj G; s3_restr := o3_to_fullcyl adj G |}.
Proof.
  intros G adj HG Ha; apply (framed adj _ _ _ (fun u => pair_inv (fst u) (dih_of G (snd u))) Ha);
    cbn [s3_group s3_incl s3_restr].
  - reflexivity.
  - intros h k hk; apply cyl_hom; right; exact HG.
  - intros h k; apply cyl_inj; right; exact HG.
  - intros [| | |i v] Hv; cbn in Hv; try contradiction; destruct Hv as [Hi Hv]; unfold fullcyl_to_o3.
    rewrite dih_quat_eq by assumption; cbn [bind].
    rewrite o3_element_unit by (apply ounit_pair; [exact Hi|apply unit_plane]); cbn [bind].
    eexists; split; [reflexivity|]; split; [apply ounit_pair; [exact Hi|apply unit_plane]|].
    apply omat_pair, quat_of_base.
  - intros g Hg; unfold o3_to_fullcyl; rewrite o3_to_adj_unit by assumption; reflexivity.
  - intros u Hu; rewrite pair_inv_01 by apply Hu; destruct (dih_of_total G (snd u)) as [o ->]; cbn; eauto.
  - intros [| | |i v] u Hv Hu E; cbn in Hv; try contradiction; destruct Hv as [Hi Hv]; cbn [cyl_of] in E.
    destruct (split_elem u i (plane_quat (flip_of v) (angle_of G v)) Hu Hi (unit_plane _ _)) as (F & s & Hs & ->).
    { eapply meq_trans3; [exact E|]; intros r c Hr Hc; unfold mscal; rewrite (quat_of_base G v r c Hr Hc); reflexivity. }
    rewrite F, pair_inv_01, dih_of_exact by assumption.
    exists (EC i v); split; [reflexivity|]; split; [split; assumption|reflexivity].
  - intros u k Hu E; rewrite pair_inv_01 in E by apply Hu.
    destruct (dih_of G (snd u)) as [|[v|]] eqn:R; try discriminate E.
    cbn in E; injection E as <-; destruct (dih_of_sound G _ v HG (proj2 Hu) R) as [M B].
    split; [split; [apply Hu|exact M]|].
    apply omat_error; intros i j Hi Hj; eapply Rle_trans; [apply B; assumption|lra].
Qed.
