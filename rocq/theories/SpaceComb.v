(** Subgroups of subgroups of SO(3). *)
From Coq Require Import Reals ZArith Bool List Lia Lra.
From Verif Require Import LibRes LibMat LibTrig FinGroupModel SpecFinGroup SpecGroup FinGroupProofs ParamModel ParamProofs
  PlanarModel SpecPlanar PlanarProofs SpaceModel SpecSpace SpaceProofs SpaceTol SpaceThms SpaceSub.
Import ListNotations.
Open Scope R_scope.

(** The planar subgroup after processing, and the frame it is seen from. *)
Lemma planar_base : forall f N adj s, (N = -1 \/ 0 < N)%Z -> unit adj -> so3_subgroup (S3Plane f N) adj = Ret s ->
  exists b M adj', so3_process (S3Plane f N) adj = Ret (S3PPlane b M, adj') /\ unit adj' /\
    so3_subgroup' (S3PPlane b M) adj' = Ret s /\
    (M = -1 \/ 0 < M)%Z /\ (b = true -> M <> 1%Z) /\
    space_subgroup unit as_matrix (as_matrix adj') (GP (plane_group b M)) (base_of (plane_group b M)) s.
Proof.
  intros f N adj s D Ha E; unfold so3_subgroup in E; rewrite process_eq in * by exact Ha; cbn [bind fst snd] in E.
  pose proof (unit_process f N adj Ha) as U; set (adj' := process_adj f N adj) in *.
  destruct (flips f && (N =? 1)%Z) eqn:C.
  - exists false, 2%Z, adj'; split; [reflexivity|]; split; [exact U|]; split; [exact E|].
    split; [lia|]; split; [discriminate|].
    cbn in E; apply Ret_inj in E; subst s.
    apply (sub_cyc (Fin (Cyc 2)) adj'); [right; exists 2%Z; split; [lia|reflexivity]|exact U].
  - exists (flips f), N, adj'; split; [reflexivity|]; split; [exact U|]; split; [exact E|]; split; [exact D|].
    assert (N1 : flips f = true -> N <> 1%Z) by (intros F; rewrite F in C; cbn in C; apply Z.eqb_neq; exact C).
    split; [exact N1|]; destruct (flips f).
    + assert (E' : s = {| s3_group := GP (plane_group true N); s3_incl := o2_to_so3 adj' (plane_group true N);
                            s3_restr := so3_to_o2 adj' (plane_group true N) |}).
      { unfold so3_subgroup' in E; unfold plane_group; destruct (Z.eqb_spec N (-1)); [apply Ret_inj in E; symmetry; exact E|].
        destruct (Z.eqb_spec N 1); [exfalso; exact (N1 eq_refl ltac:(assumption))|]; destruct (Z.ltb_spec 1 N); [apply Ret_inj in E; symmetry; exact E|discriminate E]. }
      subst s; apply sub_dih; [apply dihedral_documented; auto|exact U].
    + assert (E' : s = {| s3_group := GP (plane_group false N); s3_incl := so2_to_so3 adj' (plane_group false N);
                          s3_restr := so3_to_so2 adj' (plane_group false N) |}).
      { unfold so3_subgroup' in E; unfold plane_group; destruct (Z.eqb_spec N (-1)); [apply Ret_inj in E; symmetry; exact E|].
        destruct (Z.ltb_spec 0 N); [apply Ret_inj in E; symmetry; exact E|discriminate E]. }
      subst s; apply sub_cyc; [apply cyclic_documented; exact D|exact U].
Qed.

(** The flips and the order of a subgroup of a planar group. *)
Definition inner_flip (G : pgrp) (id : subid) : flipspec :=
  match G, id with
  | _, BO2 (Some a) _ => FFloat a
  | Fin (Dih N), BDih (Some k) _ => FFloat (IZR k * 2 * PI / IZR N)
  | _, _ => FBool false
  end.
Definition inner_order (id : subid) : Z :=
  match id with BInt n | BO2 _ n | BDih _ n => n | BSO3 _ _ => 0%Z end.

Lemma inner_cases : forall G id, sub_documented (GP G) id -> planar_like G ->
  exists incl, sub_subgroup (GP G) id = Ret (GP (plane_group (flips (inner_flip G id)) (inner_order id)), incl) /\
  (inner_order id = -1 \/ 0 < inner_order id)%Z /\
  forall h, smember (GP (plane_group (flips (inner_flip G id)) (inner_order id))) h ->
    exists v u, h = EP v /\ incl h = Ret (EP u) /\ pmember G u /\
      flip_of u = plane_flip (flips (inner_flip G id)) (inner_order id) v /\
      same_angle (angle_of G u)
        (plane_angle (flips (inner_flip G id)) (inner_order id) v
         + IZR (plane_flip (flips (inner_flip G id)) (inner_order id) v) * axis2 (inner_flip G id)).
Proof.
  intros G id D HG.
  destruct HG as [[->|(N & HN & ->)]|[->|(N & HN & ->)]]; destruct id as [id adj|n|axis n|axis n]; cbn in D; try contradiction.
  - (* SO(2) *)
    cbn [inner_flip inner_order flips]; unfold plane_group; cbn [sub_subgroup p_subgroup].
    destruct (Z.ltb_spec 0 n) as [P|P].
    + destruct (Z.eqb_spec n (-1)); [lia|]; cbn [bind ps_group]; eexists; split; [reflexivity|]; split; [lia|].
      intros [v| | |] Hv; cbn in Hv; try contradiction; destruct v as [[r|? ?]|?|? ?]; try contradiction.
      exists (VF (VC r)); eexists; split; [reflexivity|]; cbn [ps_incl]; rewrite so2_parent_eq by exact P; cbn [bind].
      split; [reflexivity|]; cbn; unfold plane_angle, plane_flip, plane_group; cbn [andb].
      destruct (Z.eqb_spec n (-1)); [lia|]; cbn [flip_of angle_of axis2]; split; [apply m_range|]; split; [reflexivity|].
      etransitivity; [apply sa_m|]; apply sa_eq; unfold ang; ring.
    + assert (n = -1)%Z by lia; subst n; cbn [Z.eqb Pos.eqb bind ps_group]; eexists; split; [reflexivity|]; split; [lia|].
      intros [v| | |] Hv; cbn in Hv; try contradiction; destruct v as [?|t|? ?]; try contradiction.
      exists (VS t), (VS t); split; [reflexivity|]; split; [reflexivity|]; cbn; split; [exact Hv|]; split; [reflexivity|].
      unfold plane_angle, plane_flip; cbn; apply sa_eq; ring.
  - (* C_N *)
    destruct D as [Hn Dv]; cbn [inner_flip inner_order flips sub_subgroup subgroup]; unfold plane_group.
    destruct (Z.eqb_spec n (-1)); [lia|].
    destruct (Z.ltb_spec 0 n); [|lia]; cbn [assert_ bind].
    pose proof Dv as [q Eq].
    assert (Mo : (N mod n = 0)%Z) by (apply Z.mod_divide; [lia|exact Dv]); rewrite Mo; cbn [Z.eqb assert_ bind sg_group].
    eexists; split; [reflexivity|]; split; [lia|].
    intros [v| | |] Hv; cbn in Hv; try contradiction; destruct v as [[r|? ?]|?|? ?]; try contradiction.
    assert (Q : (r * N / n = r * q)%Z) by (subst N; rewrite Z.mul_assoc, Z.div_mul by lia; reflexivity).
    assert (B : (0 <= r * q < N)%Z) by (assert (0 < q)%Z by nia; subst N; nia).
    exists (VF (VC r)), (VF (VC (r * q))); split; [reflexivity|]; split; [|split; [|split]].
    + cbn [sg_incl parent_c]; rewrite Q; unfold element, is_element.
      destruct (Z.leb_spec 0 (r * q)); [|lia]; destruct (Z.ltb_spec (r * q) N); [|lia]; reflexivity.
    + cbn; exact B.
    + reflexivity.
    + unfold plane_angle, plane_flip, plane_group; cbn [andb flip_of axis2]; destruct (Z.eqb_spec n (-1)); [lia|].
      cbn [angle_of]; apply sa_eq; subst N; rewrite !mult_IZR; pose proof (IZR_pos n Hn).
      assert (0 < IZR q) by (apply IZR_pos; nia); field; lra.
  - (* O(2) *)
    destruct axis as [a|].
    + destruct D as [Hn Hax]; cbn [inner_flip inner_order flips axis2 sub_subgroup p_subgroup].
      rewrite (axis_ok a Hax); cbn [assert_ bind].
      replace ((n =? -1)%Z || (0 <? n)%Z) with true
        by (symmetry; apply orb_true_iff; destruct Hn; [right; apply Z.ltb_lt|left; apply Z.eqb_eq]; lia).
      cbn [assert_ bind]; unfold plane_group.
      destruct (Z.eqb_spec n (-1)) as [->|N1].
      * rewrite !pelement_o2 by auto; rewrite (m_id (a / 2)) by (pose proof two_pi_pos; lra); cbn [bind ps_group]; eexists; split; [reflexivity|]; split; [lia|].
        intros [v| | |] Hv; cbn in Hv; try contradiction; destruct v as [?|?|f t]; try contradiction.
        destruct Hv as [Hf Ht]; exists (VO f t); cbn [ps_incl].
        pose proof (adjoint_eq (a / 2) f t Hf) as AE.
        eexists; split; [reflexivity|]; rewrite AE; cbn [bind]; split; [reflexivity|].
        cbn; split; [split; [exact Hf|apply m_range]|]; unfold plane_flip, plane_angle; cbn; split; [reflexivity|].
        etransitivity; [apply sa_m|]; apply sa_eq; destruct Hf as [->| ->]; cbn; field.
      * destruct (Z.eqb_spec n 1) as [->|N2].
        -- cbn [bind ps_group]; eexists; split; [reflexivity|]; split; [lia|].
           intros [v| | |] Hv; cbn in Hv; try contradiction; destruct v as [[r|? ?]|?|? ?]; try contradiction.
           assert (Hr : (r = 0 \/ r = 1)%Z) by lia.
           exists (VF (VC r)); cbn [ps_incl]; rewrite flip_to_o2_eq by exact Hr; cbn [bind]; eexists; split; [reflexivity|].
           split; [reflexivity|]; cbn; split; [split; [exact Hr|apply m_range]|].
           unfold plane_flip, plane_angle; cbn; split; [reflexivity|].
           etransitivity; [apply sa_m|]; apply sa_eq; ring.
        -- cbn [bind ps_group]; eexists; split; [reflexivity|]; split; [lia|].
           intros [v| | |] Hv; cbn in Hv; try contradiction; destruct v as [[?|f r]|?|? ?]; try contradiction.
           destruct Hv as [Hf Hr]; exists (VF (VD f r)); cbn [ps_incl]; rewrite dn_to_o2_eq by (try exact Hf; lia); cbn [bind].
           eexists; split; [reflexivity|]; split; [reflexivity|]; cbn; split; [split; [exact Hf|apply m_range]|].
           unfold plane_flip, plane_angle, plane_group; replace (n =? 1)%Z with false by (symmetry; apply Z.eqb_neq; lia).
           cbn [andb]; replace (n =? -1)%Z with false by (symmetry; apply Z.eqb_neq; lia); cbn; split; [reflexivity|].
           etransitivity; [apply sa_m|]; apply sa_eq; unfold ang; ring.
    + cbn [inner_flip inner_order flips axis2 sub_subgroup p_subgroup assert_ bind].
      replace ((n =? -1)%Z || (0 <? n)%Z) with true
        by (symmetry; apply orb_true_iff; destruct D; [right; apply Z.ltb_lt|left; apply Z.eqb_eq]; lia).
      cbn [assert_ bind]; unfold plane_group.
      destruct (Z.eqb_spec n (-1)) as [->|N1].
      * cbn [bind ps_group]; eexists; split; [reflexivity|]; split; [lia|].
        intros [v| | |] Hv; cbn in Hv; try contradiction; destruct v as [?|t|? ?]; try contradiction.
        exists (VS t); cbn [ps_incl]; rewrite so2_to_o2_so2; cbn [bind]; eexists; split; [reflexivity|]; split; [reflexivity|].
        cbn; split; [split; [auto|apply m_range]|]; unfold plane_flip, plane_angle; cbn; split; [reflexivity|].
        etransitivity; [apply sa_m|]; apply sa_eq; ring.
      * cbn [bind ps_group]; eexists; split; [reflexivity|]; split; [lia|].
        intros [v| | |] Hv; cbn in Hv; try contradiction; destruct v as [[r|? ?]|?|? ?]; try contradiction.
        exists (VF (VC r)); cbn [ps_incl]; rewrite so2_to_o2_cyc by lia; cbn [bind].
        eexists; split; [reflexivity|]; split; [reflexivity|]; cbn; split; [split; [auto|apply m_range]|].
        unfold plane_flip, plane_angle, plane_group; cbn [andb]; replace (n =? -1)%Z with false by (symmetry; apply Z.eqb_neq; lia).
        cbn; split; [reflexivity|]; etransitivity; [apply sa_m|]; apply sa_eq; unfold ang; ring.
  - (* D_N *)
    assert (Hd : (0 < n)%Z /\ (n | N)%Z) by (destruct axis; tauto); destruct Hd as [Hn Dv]; pose proof Dv as [q Eq].
    assert (Hq : (0 < q)%Z) by nia.
    assert (Mo : (N mod n = 0)%Z) by (apply Z.mod_divide; [lia|exact Dv]).
    assert (Qd : (N / n = q)%Z) by (subst N; apply Z.div_mul; lia).
    pose proof (IZR_pos n Hn) as Rn; pose proof (IZR_pos q Hq) as Rq; pose proof (IZR_pos N HN) as RN.
    destruct axis as [a|].
    + destruct D as (_ & _ & Hax); rewrite Qd in Hax; cbn [inner_flip inner_order flips axis2 sub_subgroup subgroup].
      replace (1 <=? n)%Z with true by (symmetry; apply Z.leb_le; lia); rewrite Mo; cbn [Z.eqb assert_ bind].
      replace ((0 <=? a)%Z && (a <? N)%Z) with true
        by (symmetry; apply andb_true_iff; split; [apply Z.leb_le; lia|apply Z.ltb_lt; subst N; nia]).
      cbn [assert_ bind]; unfold plane_group; destruct (Z.eqb_spec n (-1)); [lia|].
      destruct (Z.eqb_spec n 1) as [->|N2].
      * cbn [bind sg_group]; eexists; split; [reflexivity|]; split; [lia|].
        intros [v| | |] Hv; cbn in Hv; try contradiction; destruct v as [[r|? ?]|?|? ?]; try contradiction.
        assert (Hr : (r = 0 \/ r = 1)%Z) by lia.
        exists (VF (VC r)), (VF (VD r (r * a))); split; [reflexivity|]; split; [|split; [|split]].
        -- cbn [sg_incl flip_to_dn]; destruct Hr as [->| ->]; cbn [Z.eqb bind]; [reflexivity|].
           unfold element, is_element; cbn [Z.eqb Pos.eqb orb].
           destruct (Z.leb_spec 0 a); [|lia]; destruct (Z.ltb_spec a N); [|nia]; cbn [andb bind]; do 3 f_equal; destruct a; reflexivity.
        -- cbn; split; [exact Hr|]; destruct Hr as [->| ->]; nia.
        -- reflexivity.
        -- unfold plane_angle, plane_flip; cbn; apply sa_eq; rewrite mult_IZR; field; lra.
      * cbn [bind sg_group]; eexists; split; [reflexivity|]; split; [lia|].
        intros [v| | |] Hv; cbn in Hv; try contradiction; destruct v as [[?|f r]|?|? ?]; try contradiction.
        destruct Hv as [Hf Hr].
        assert (B : (0 <= r * q + f * a < N)%Z) by (destruct Hf as [->| ->]; subst N; nia).
        exists (VF (VD f r)), (VF (VD f (r * q + f * a))); split; [reflexivity|]; split; [|split; [|split]].
        -- cbn [sg_incl dm_to_dn]; rewrite Qd; unfold element, is_element.
           destruct (Z.leb_spec 0 (r * q + f * a)); [|lia]; destruct (Z.ltb_spec (r * q + f * a) N); [|lia].
           destruct Hf as [->| ->]; reflexivity.
        -- cbn; split; assumption.
        -- unfold plane_flip; replace (n =? 1)%Z with false by (symmetry; apply Z.eqb_neq; lia); reflexivity.
        -- unfold plane_flip, plane_angle, plane_group; replace (n =? 1)%Z with false by (symmetry; apply Z.eqb_neq; lia).
           cbn [andb]; replace (n =? -1)%Z with false by (symmetry; apply Z.eqb_neq; lia); cbn [angle_of flip_of].
           apply sa_eq; rewrite plus_IZR, !mult_IZR; subst N; rewrite mult_IZR; field; lra.
    + cbn [inner_flip inner_order flips axis2 sub_subgroup subgroup].
      replace (1 <=? n)%Z with true by (symmetry; apply Z.leb_le; lia); rewrite Mo; cbn [Z.eqb assert_ bind].
      unfold plane_group; destruct (Z.eqb_spec n (-1)); [lia|]; cbn [bind sg_group]; eexists; split; [reflexivity|]; split; [lia|].
      intros [v| | |] Hv; cbn in Hv; try contradiction; destruct v as [[r|? ?]|?|? ?]; try contradiction.
      assert (B : (0 <= r * q < N)%Z) by (subst N; nia).
      exists (VF (VC r)), (VF (VD 0 (r * q))); split; [reflexivity|]; split; [|split; [|split]].
      * cbn [sg_incl cn_to_dn]; rewrite Qd; unfold element, is_element; cbn [Z.eqb orb].
        destruct (Z.leb_spec 0 (r * q)); [|lia]; destruct (Z.ltb_spec (r * q) N); [|lia]; reflexivity.
      * cbn; auto.
      * reflexivity.
      * unfold plane_flip, plane_angle, plane_group; cbn [andb]; replace (n =? -1)%Z with false by (symmetry; apply Z.eqb_neq; lia).
        cbn [angle_of flip_of]; apply sa_eq; rewrite mult_IZR; subst N; rewrite mult_IZR; field; lra.
Qed.

Lemma plane_like : forall b M, (M = -1 \/ 0 < M)%Z -> (b = true -> M <> 1%Z) -> planar_like (plane_group b M).
Proof.
  intros [|] M D H; [right; apply dihedral_documented|left; apply cyclic_documented]; auto.
Qed.

(** The id that combines a planar subgroup with one of its subgroups. *)
Lemma combine_planar : forall f N adj s id2 b M adj', unit adj ->
  so3_process (S3Plane f N) adj = Ret (S3PPlane b M, adj') ->
  so3_subgroup' (S3PPlane b M) adj' = Ret s -> (M = -1 \/ 0 < M)%Z -> (b = true -> M <> 1%Z) ->
  sub_documented (GP (plane_group b M)) id2 ->
  so3_combine_subgroups (S3Plane f N) adj id2 =
  Ret (S3Plane (inner_flip (plane_group b M) id2) (inner_order id2), adj').
Proof.
  intros f N adj s id2 b M adj' Ha P E D H I; unfold so3_combine_subgroups; rewrite P; cbn [bind fst snd]; rewrite E; cbn [bind].
  unfold plane_group in *; destruct b.
  - destruct (Z.eqb_spec M (-1)) as [->|N1].
    + destruct id2 as [? ?|n|[a|] n|[k|] n]; cbn in I; try contradiction; reflexivity.
    + destruct (Z.eqb_spec M 1) as [->|N2]; [exfalso; exact (H eq_refl eq_refl)|].
      destruct id2 as [? ?|n|[a|] n|[k|] n]; cbn in I; try contradiction;
        (destruct (Z.ltb_spec 0 M); [reflexivity|lia]).
  - destruct (Z.eqb_spec M (-1)) as [->|N1]; destruct id2 as [? ?|n|[a|] n|[k|] n]; cbn in I; try contradiction; reflexivity.
Qed.

Lemma so3_combine_correct : forall id1 adj1 s1 id2, so3_documented id1 -> unit adj1 ->
  so3_subgroup id1 adj1 = Ret s1 -> sub_documented (s3_group s1) id2 ->
  exists id adj s incl2, so3_combine_subgroups id1 adj1 id2 = Ret (id, adj) /\
    so3_documented id /\ unit adj /\ so3_subgroup id adj = Ret s /\
    sub_subgroup (s3_group s1) id2 = Ret (s3_group s, incl2) /\
    forall h, smember (s3_group s) h -> agree s1 s incl2 h.
Proof.
  intros [|f N] adj1 s1 id2 D Ha E I.
  - cbn in E; apply Ret_inj in E; pose proof E as E1; subst s1; cbn [s3_group] in *.
    destruct id2 as [id2 adj2|n|a n|k n]; cbn in I; try contradiction; destruct I as [D2 Ha2].
    destruct (so3_subgroup_exists id2 adj2 D2 Ha2) as [s2 E2].
    pose proof (so3_subgroup_correct id2 adj2 s2 D2 Ha2 E2) as C2.
    unfold so3_combine_subgroups; cbn [so3_process bind fst snd so3_subgroup' s3_incl].
    assert (P : exists pid adj2', so3_process id2 adj2 = Ret (pid, adj2') /\ unit adj2' /\
              so3_subgroup' pid adj2' = Ret s2 /\
              exists id2', id2' = match pid with S3PSelf => S3Self | S3PPlane b n => S3Plane (FBool b) n end /\
                so3_documented id2' /\ (forall a, so3_process id2' a = Ret (pid, a)) /\
                exists G Mx, space_subgroup unit as_matrix (as_matrix adj2') G Mx s2 /\
                  (forall a s, unit a -> so3_subgroup id2' a = Ret s -> space_subgroup unit as_matrix (as_matrix a) G Mx s)).
    { destruct id2 as [|f2 N2].
      - exists S3PSelf, adj2; split; [reflexivity|]; split; [exact Ha2|]; split; [exact E2|].
        exists S3Self; split; [reflexivity|]; split; [exact I|]; split; [reflexivity|].
        exists GSO3, (so3_matrix S3Self); split; [exact C2|].
        intros a s Hu Es; apply (so3_subgroup_correct S3Self a s Logic.I Hu Es).
      - destruct (planar_base f2 N2 adj2 s2 D2 Ha2 E2) as (b & M & a' & P1 & P2 & P3 & P4 & P5 & P6).
        exists (S3PPlane b M), a'; split; [exact P1|]; split; [exact P2|]; split; [exact P3|].
        exists (S3Plane (FBool b) M); split; [reflexivity|]; split; [exact P4|].
        assert (PR : forall a, so3_process (S3Plane (FBool b) M) a = Ret (S3PPlane b M, a)).
        { intros a; cbn [so3_process bind fst snd]; destruct b; cbn [andb]; [|reflexivity].
          destruct (Z.eqb_spec M 1); [exfalso; apply P5; auto|reflexivity]. }
        split; [exact PR|].
        exists (GP (plane_group b M)), (base_of (plane_group b M)); split; [exact P6|].
        intros a s Hu Es; destruct (planar_base _ _ _ _ P4 Hu Es) as (b' & M' & a'' & Q1 & _ & _ & _ & _ & Q6).
        rewrite PR in Q1; injection Q1 as <- <- <-; exact Q6. }
    destruct P as (pid & adj2' & P1 & P2 & P3 & id2' & Eid & D2' & PR & G & Mx & C & Call).
    rewrite P1; cbn [bind fst snd].
    destruct (from_adj_unit adj1 adj2' Ha P2) as [-> U]; cbn [bind].
    rewrite so3_mul_unit by assumption; cbn [bind].
    assert (Q : qmul adj1 (qmul (qmul (qconj adj1) adj2') adj1) = qmul adj2' adj1).
    { rewrite !qmul_assoc, <- (qmul_assoc adj1), qmul_conj_r, qmul_id_l by exact Ha; reflexivity. }
    rewrite Q; pose proof (unit_mul adj2' adj1 P2 Ha) as U'.
    destruct (so3_subgroup_exists id2' (qmul adj2' adj1) D2' U') as [s Es].
    pose proof (Call _ _ U' Es) as Cs.
    exists id2', (qmul adj2' adj1), s, (fun h => g <- s3_incl s2 h ;; Ret (EQ g)).
    split; [subst id2'; reflexivity|]; split; [exact D2'|]; split; [exact U'|]; split; [exact Es|].
    cbn [sub_subgroup]; rewrite E2; cbn [bind].
    rewrite (sub_group _ _ _ _ _ _ Cs), (sub_group _ _ _ _ _ _ C); split; [reflexivity|].
    intros h Hh; destruct (sub_incl _ _ _ _ _ _ C h Hh) as (g2 & I2 & V2 & M2).
    destruct (sub_incl _ _ _ _ _ _ Cs h Hh) as (g & Ig & Vg & Mg).
    destruct (from_adj_unit adj1 g2 Ha V2) as [F _].
    exists (EQ g2), (qmul (qmul (qconj adj1) g2) adj1), g; rewrite I2; cbn [bind s3_incl].
    split; [reflexivity|]; split; [exact F|]; split; [exact Ig|].
    eapply meq_trans3; [exact Mg|]; eapply meq_trans3; [apply conj3; [apply mat_mul|apply meq_refl3]|].
    eapply meq_trans3; [apply conj_conj|]; eapply meq_trans3; [|apply meq_sym3, conj_mat].
    apply conj3; [apply meq_refl3|apply meq_sym3; exact M2].
  - destruct (planar_base f N adj1 s1 D Ha E) as (b & M & adj' & P1 & P2 & P3 & P4 & P5 & P6).
    rewrite (sub_group _ _ _ _ _ _ P6) in *.
    pose proof (combine_planar f N adj1 s1 id2 b M adj' Ha P1 P3 P4 P5 I) as K.
    set (G := plane_group b M) in *; pose proof (plane_like b M P4 P5) as L; fold G in L.
    destruct (inner_cases G id2 I L) as (incl & S2 & O2 & Inc).
    set (f2 := inner_flip G id2) in *; set (n := inner_order id2) in *.
    destruct (so3_subgroup_exists (S3Plane f2 n) adj' O2 P2) as [s Es].
    pose proof (so3_subgroup_correct (S3Plane f2 n) adj' s O2 P2 Es) as Cs.
    exists (S3Plane f2 n), adj', s, incl; split; [exact K|]; split; [exact O2|]; split; [exact P2|]; split; [exact Es|].
    rewrite (sub_group _ _ _ _ _ _ Cs); cbn [so3_group_of]; split; [exact S2|].
    intros h Hh; destruct (Inc h Hh) as (v & u & -> & I2 & Mu & Fu & Au).
    destruct (sub_incl _ _ _ _ _ _ P6 (EP u) Mu) as (g2 & Ig2 & _ & Mg2).
    destruct (sub_incl _ _ _ _ _ _ Cs (EP v) Hh) as (g & Ig & _ & Mg).
    exists (EP u), g2, g; split; [exact I2|]; split; [exact Ig2|]; split; [exact Ig|].
    eapply meq_trans3; [exact Mg|]; eapply meq_trans3; [|apply meq_sym3; exact Mg2].
    cbn [so3_matrix base_of]; unfold plane_matrix, base_matrix; cbv zeta.
    rewrite Fu, <- (Rz_same _ _ Au); apply meq_refl3.
Qed.
