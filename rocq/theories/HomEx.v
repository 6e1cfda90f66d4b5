(** Functions on SO(2), a homogeneous space with the trivial stabiliser. *)
From Coq Require Import Reals ZArith Bool List Lia Lra Setoid Morphisms Arith.
From Verif Require Import LibRes LibList LibMat LibMatS LibTrig LibPy SpecGroup SpecRep ParamModel ParamProofs FinGroupModel PlanarModel SpecPlanar PlanarProofs FinGroupProofs FieldModel GroupedModel NonlinModel PoolModel IrrepModel SpecIrrep IrrepProofs
  RepModel SpecRepr RepProofs RepThms SpecReg RegModel IndModel SpecDis IndFinModel IndPlanar GSpaceModel SpecGSpace FieldMapModel FourierModel FourierThms FourierCor FourierFin HomModel SpecHom HomCor HomPlanar HomSharp.
Import ListNotations.
Open Scope R_scope.

Lemma restrict_irreps : forall linv G sid H id d x, hom_restrict linv G sid H id = Ret d -> (exists r, p_irr G id = Ret r /\ gi_id r = id) -> any_restrict_irrep G sid id = Ret x -> r_irreps d = snd x.
Proof.
  intros linv G sid H id d x Ed (r & Er & Id) Ex; unfold hom_restrict in Ed; rewrite Er in Ed; cbn [bind] in Ed.
  unfold restrict_representation in Ed; cbn [repr_of_irrep r_irreps r_size r_cob] in Ed; rewrite Id in Ed; cbn [mapM] in Ed.
  rewrite Ex, Er in Ed; cbn [bind fst] in Ed; apply bind_Ret in Ed as (u & Eu & Ed).
  apply bind_Ret in Eu as (w & Ew & Eu); apply assert_Ret in Ew as [_ Ew]; apply Ret_inj in Ew, Eu; subst u w; cbn [map fst flat_map] in Ed; rewrite ?app_nil_r in Ed.
  apply assert_Ret in Ed as [_ Ed]; unfold mk_repr in Ed; apply assert_Ret in Ed as [_ Ed]; apply bind_Ret in Ed as (i & _ & Ed).
  apply assert_Ret in Ed as [_ Ed]; apply assert_Ret in Ed as [_ Ed]; apply bind_Ret in Ed as (_u & _ & Ed); apply bind_Ret in Ed as (f & _ & Ed).
  apply Ret_inj in Ed; subst d; reflexivity.
Qed.

Lemma circle_restr : forall k, (0 < k)%Z -> any_restrict_irrep SO2 (IdP (ISO2 1)) [k] = Ret ((2%nat, mid), [[0%Z]; [0%Z]]).
Proof.
  intros k Hk; cbn [any_restrict_irrep p_restrict_irrep]; unfold so2_restrict_irrep, p_irrep.
  destruct k as [|k|k]; try lia; cbn. rewrite Zmod_1_r. reflexivity.
Qed.
Lemma circle_restr0 : any_restrict_irrep SO2 (IdP (ISO2 1)) [0%Z] = Ret ((1%nat, mid), [[0%Z]]).
Proof. reflexivity. Qed.

(** one real function for the constants, and for each frequency one function over the complex numbers *)
Theorem circle_example : forall linv components k, correct_inverse linv -> correct_components components -> (0 < k)%Z ->
  exists sg rho psi F, any_subgroup SO2 (IdP (ISO2 1)) = Ret sg /\ irrep_ok SO2 [k] /\ irrep_ok (ps_group sg) [0%Z] /\ listed SO2 (IdP (ISO2 1)) /\ untilted (IdP (ISO2 1)) /\
    p_irr SO2 [k] = Ret rho /\ p_irr (ps_group sg) [0%Z] = Ret psi /\ gi_size rho = 2%nat /\ length (gi_endo rho) = 2%nat /\
    (forall g, pmember SO2 g -> basis (p_irr SO2) (p_irr (ps_group sg)) (hom_restrict linv SO2 (IdP (ISO2 1)) (ps_group sg)) components g [k] [0%Z] = Ret [F g]) /\
    basis_of_fields (pmember SO2) (pmul SO2) (pmember (ps_group sg)) (ps_incl sg) rho psi 1 (fun g => [F g]).
Proof.
  intros linv components k Hl Hc Hk.
  assert (L : listed SO2 (IdP (ISO2 1))) by (cbn; lia).
  destruct (any_subgroup SO2 (IdP (ISO2 1))) as [|sg] eqn:Es; [discriminate Es|].
  assert (V : pvalid SO2) by exact I.
  assert (O1 : irrep_ok SO2 [k]) by (cbn; lia).
  assert (Eg : ps_group sg = Fin (Cyc 1)) by (cbn in Es; apply Ret_inj in Es; subst sg; reflexivity).
  assert (O2' : irrep_ok (ps_group sg) [0%Z]) by (rewrite Eg; cbn; lia).
  destruct (p_irr_sound SO2 [k] V O1) as (rho & Er & Id & Pr & _).
  destruct (p_irr_sound (ps_group sg) [0%Z] (any_valid SO2 (IdP (ISO2 1)) sg V L Es) O2') as (psi & Ep & Ip & Pp & _).
  assert (Sh : sharp_at SO2 (IdP (ISO2 1)) [k]) by (intros x Ex; exact (untilted_sharp SO2 (IdP (ISO2 1)) [k] V L I O1 x Ex)).
  destruct (planar_basis SO2 (IdP (ISO2 1)) sg linv V L Es Hl components Hc [0%Z] psi O2' Ep [k] rho O1 Er Sh) as (n & F & F1 & F2 & F3).
  destruct (any_inducible SO2 (IdP (ISO2 1)) sg linv V L Es Hl [k] O1 Sh) as [_ (d & Ed)].
  assert (Szr : gi_size rho = 2%nat /\ gi_sosc rho = 2%nat /\ length (gi_endo rho) = 2%nat).
  { destruct (planar_endo SO2 [k] rho V O1 Er) as [[_ K]|(S2 & K2 & Ee)]; [exfalso|rewrite Ee; auto].
    destruct (p_irr_kind SO2 [k] rho V O1 Er) as (r & Er' & -> & A); destruct A as (_ & _ & _ & _ & Ec & _); cbn [girrep_of gi_sosc] in K; unfold ir_sosc in K.
    cbn [irrep_kind] in Ec; replace (k =? 0)%Z with false in Ec by (symmetry; apply Z.eqb_neq; lia); rewrite Ec in K; discriminate K. }
  destruct Szr as (S2 & K2 & Le).
  assert (Sp : gi_sosc psi = 1%nat).
  { rewrite Eg in Ep, O2'; destruct (planar_endo (Fin (Cyc 1)) [0%Z] psi eq_refl O2' Ep) as [[_ K]|(P2 & _ & _)]; [exact K|exfalso].
    destruct (p_irr_kind (Fin (Cyc 1)) [0%Z] psi eq_refl O2' Ep) as (r & Er' & -> & A); destruct A as (_ & _ & Ez & _); cbn in Ez, P2; rewrite Ez in P2; discriminate P2. }
  assert (n = 1%nat).
  { unfold basis_shape in F3; rewrite Er, Ep in F3; cbn [bind] in F3; unfold dimension_basis in F3; rewrite Id, Ed in F3; cbn [bind] in F3.
    apply bind_Ret in F3 as (m & Em & F3); apply Ret_inj in F3; injection F3 as <-.
    apply assert_Ret in Em as [_ Em]; apply Ret_inj in Em; subst m.
    unfold r_multiplicity; rewrite (restrict_irreps _ _ _ _ _ _ _ Ed (ex_intro _ rho (conj Er Id)) (circle_restr k Hk)), Ip, Sp, K2; cbn [snd].
    replace (length _ * 1)%nat with (1 * 2)%nat by reflexivity; rewrite (round_div (1 * 2) 1 2) by lia; reflexivity. }
  subst n; pose proof F2 as (Ln & _).
  exists sg, rho, psi, (fun g => nth 0 (F g) mzero).
  assert (EF : forall g, pmember SO2 g -> F g = [nth 0 (F g) mzero]).
  { intros g Hg; specialize (Ln g Hg); destruct (F g) as [|a [|b l]]; try discriminate Ln; reflexivity. }
  repeat (split; [first [assumption|reflexivity|exact I]|]).
  split; [intros g Hg; rewrite <- EF by exact Hg; exact (F1 g Hg)|].
  destruct F2 as (_ & Q1 & Q2 & Q3); split; [reflexivity|split; [|split]].
  - intros [|m] Hm; [exact (Q1 0%nat Hm)|lia].
  - intros g Hg; rewrite <- EF by exact Hg; exact (Q2 g Hg).
  - intros f Hf; destruct (Q3 f Hf) as (c & Ec); exists c; intros g Hg; rewrite <- EF by exact Hg; exact (Ec g Hg).
Qed.
