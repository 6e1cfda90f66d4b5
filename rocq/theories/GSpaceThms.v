(** The plane with a group of rotations and reflections, and its restrictions. *)
From Coq Require Import Reals ZArith Bool List Lia Lra.
From Verif Require Import LibRes LibMat LibTrig SpecGroup FinGroupModel SpecFinGroup FinGroupProofs ParamModel ParamProofs PlanarModel SpecPlanar PlanarProofs IrrepModel SpecRep SpecIrrep IrrepProofs
  RepModel SpecRepr RepProofs RepThms RegThms KernelModel SpecKernel KernelProofs PolarModel SpecPolar PolarProofs PolarThms KernelPlanar KernelCor GridModel ImageModel RdConvModel RdConvPlane GSpaceModel SpecGSpace GSpaceProofs.
Import ListNotations.
Open Scope R_scope.

(** axes away from zero are told from zero *)
Lemma sin_away : forall x, / 20000000 <= x <= PI / 2 -> / 100000000 < sin x.
Proof.
  intros x [H1 H2]. pose proof PI2_1 as P. apply Rlt_le_trans with (sin (/ 20000000)).
  - destruct (SIN (/ 20000000) ltac:(lra) ltac:(lra)) as [L _]. eapply Rlt_le_trans; [|exact L].
    unfold sin_lb, sin_approx, sin_term. cbn [sum_f_R0 Nat.mul Nat.add Factorial.fact pow INR]. lra.
  - apply sin_incr_1; lra.
Qed.

Lemma axis_sharp : forall b, 0 <= b <= 2 * PI -> b = 0 \/ / 10000000 <= b -> sharp 2 (rot2 (b / 2)).
Proof.
  intros b Hb [->|H].
  - left. replace (0 / 2) with 0 by field. unfold rot2. rewrite cos_0, sin_0. intros [|[|i]] [|[|j]] Hi Hj; try lia; unfold mid; cbn; ring.
  - right. destruct (allclose 2 2 (rot2 (b / 2)) mid) eqn:E; [|reflexivity]. exfalso.
    destruct (Rle_dec (b / 2) (PI / 2)) as [L|L].
    + assert (A := proj1 (allclose_true _ _ _ _) E 1%nat 0%nat ltac:(lia) ltac:(lia)). cbn in A. unfold np_isclose in A. apply Rleb_true in A.
      pose proof (sin_away (b / 2) ltac:(lra)). rewrite Rabs_R0, Rmult_0_r, Rplus_0_r, Rminus_0_r in A. pose proof (Rle_abs (sin (b / 2))). lra.
    + assert (A := proj1 (allclose_true _ _ _ _) E 0%nat 0%nat ltac:(lia) ltac:(lia)). cbn in A. unfold np_isclose in A. apply Rleb_true in A.
      assert (cos (b / 2) <= 0) by (apply cos_le_0; lra). rewrite Rabs_R1 in A. rewrite Rabs_left in A by lra. lra.
Qed.

Lemma sharp_eq : forall n Q Q', meq n n Q Q' -> sharp n Q -> sharp n Q'.
Proof.
  intros n Q Q' H [E|E]; [left; intros i j Hi Hj; rewrite <- (H i j Hi Hj); apply E; assumption|right].
  destruct (allclose n n Q' mid) eqn:A; [|reflexivity]. rewrite <- E. symmetry. apply allclose_true. intros i j Hi Hj. rewrite (H i j Hi Hj).
  exact (proj1 (allclose_true _ _ _ _) A i j Hi Hj).
Qed.

(** restricting the rotations and reflections of the plane *)
Lemma plane_sharp : forall sid, pdocumented O2 sid -> clear_axis sid ->
  forall n Q ids, p_restrict_irrep O2 [1%Z; 1%Z] sid = Ret ((n, Q), ids) -> sharp n Q.
Proof.
  intros [|[a|] M] HD HC n Q ids E; cbn in HD; try contradiction.
  2:{ exact (rot_sharp_restrict M 1 1 n Q ids (le_n 1) E). }
  destruct HD as [HM Ha]. pose proof (axis_sharp a Ha HC) as S.
  assert (meq 2 2 (rot2 (a / 2)) (psi (1 / 2 * a) 1 0)) as Ep.
  { unfold psi, rot2. replace (IZR 1 * (1 / 2 * a) + 0) with (a / 2) by (cbn [IZR IPR]; field). reflexivity. }
  cbn [p_restrict_irrep] in E. unfold o2_restrict_irrep in E. cbn [p_irrep] in E. 
  apply bind_Ret in E as (r & Er & E). apply bind_Ret in E as (sg & _ & E).
  assert (ir_size r = 2%nat /\ ir_freq r = 1%Z) as [Sr Fr].
  { cbn in Er. apply Ret_inj in Er. rewrite <- Er. split; reflexivity. }
  rewrite Sr, Fr in E. cbn [Nat.eqb Nat.ltb Nat.leb] in E. destruct (Z.eqb_spec M (-1)) as [->|N1].
  - cbn [sq_mul Nat.eqb assert_ bind] in E. apply Ret_inj in E. injection E as <- <- _. eapply sharp_eq; [|exact S]. rewrite LibMat.mid_r. exact Ep.
  - destruct (Z.eqb_spec M 1) as [->|N2].
    + apply bind_Ret in E as (j & _ & E). apply Ret_inj in E. injection E as <- <- _. eapply sharp_eq; [|exact S]. exact Ep.
    + apply bind_Ret in E as (j & _ & E). rewrite Z.mod_small in E by lia. replace (M <? 2 * 1)%Z with false in E by lia. cbn [fst snd] in E.
      apply bind_Ret in E as (s & _ & E). cbn [sq_mul Nat.eqb assert_ bind] in E. apply Ret_inj in E. injection E as <- <- _. eapply sharp_eq; [|exact S]. rewrite LibMat.mid_r. exact Ep.
Qed.

Lemma plane_kmat : forall f t M, (f = 0 \/ f = 1)%Z -> meq 2 2 M (kmat (K2 1) f t) -> plane_matrix (VO f t) M.
Proof.
  intros f t M Hf E. unfold plane_matrix. rewrite !(fun i j Hi Hj => E i j Hi Hj) by lia. unfold kmat, mat2. rewrite !Rmult_1_l.
  split; [reflexivity|]. split; [reflexivity|]. destruct Hf as [->| ->]; [left|right]; unfold rsign; cbn; repeat split; ring.
Qed.

Lemma plane_unique : forall g M M', plane_matrix g M -> plane_matrix g M' -> meq 2 2 M M'.
Proof.
  intros [|?|f t] M M' H H'; cbn in H, H'; try contradiction. destruct H as (A & B & H), H' as (A' & B' & H').
  intros [|[|i]] [|[|j]] Hi Hj; try lia; destruct H as [(F & C & D)|(F & C & D)], H' as [(F' & C' & D')|(F' & C' & D')]; try lia; lra.
Qed.

(** the group acts on the plane by the matrices of its elements *)
Theorem space_ok : forall linv sid, correct_inverse linv -> pdocumented O2 sid -> clear_axis sid ->
  exists s, mk_gspace2 linv sid = Ret s /\ gs_id s = sid /\ p_subgroup O2 sid = Ret (gs_sub s) /\
    forall h, pmember (gs_group s) h -> exists g B, ps_incl (gs_sub s) h = Ret g /\ pmember O2 g /\ r_fun (gs_base s) h = Ret (2%nat, B) /\ plane_matrix g B.
Proof.
  intros linv sid Hi HD HC. destruct (p_subgroup_cases _ _ HD) as (sg & Es & _). unfold mk_gspace2. rewrite Es. cbn [bind].
  destruct (o2_restrict_sound linv sid sg [1%Z; 1%Z] Hi HD Es (circ_ok 1) (plane_sharp sid HD HC)) as (s & r & Ei & Er & Sz & _ & _ & Hr).
  unfold r2_action. rewrite Er. cbn [bind]. eexists. split; [reflexivity|]. cbn [gs_id gs_sub gs_base gs_group]. split; [reflexivity|]. split; [reflexivity|].
  intros h Hh. destruct (Hr h Hh) as (g & D & D' & Eg & Mg & ED' & ED & MD). exists g, D'. split; [exact Eg|]. split; [exact Mg|].
  destruct (circ_irrep 1) as (s' & Es' & Ss & Hs). change (ar_id circular 1) with [1%Z; 1%Z] in Es'. rewrite Ei in Es'. apply Ret_inj in Es'. subst s'.
  destruct g as [|?|f t]; cbn in Mg; try contradiction. destruct (Hs f t Mg) as (D2 & ED2 & MD2). rewrite ED in ED2. apply Ret_inj in ED2. injection ED2 as <-.
  cbn [circular ar_dim Nat.ltb Nat.leb] in Ss. rewrite Ss in *. rewrite Sz in ED'. split; [exact ED'|]. destruct Mg as [Hf _].
  apply plane_kmat; [exact Hf|]. rewrite MD. exact MD2.
Qed.

(** the axis of a combined id *)
Lemma combine_axis : forall id1 id2 sg1 b n, pdocumented O2 id1 -> p_subgroup O2 id1 = Ret sg1 -> listed (ps_group sg1) id2 -> o2_combine id1 id2 = Ret (IO2 (Some b) n) ->
  joint_axis id1 id2 b \/ exists n', id1 = IO2 (Some b) n'.
Proof.
  intros id1 id2 sg1 b n D1 E1 L E. destruct (p_subgroup_cases _ _ D1) as (x & Ex & C1). rewrite E1 in Ex. apply Ret_inj in Ex. subst x.
  pose proof (ps_valid _ _ _ D1 E1) as V. destruct (listed_subgroup _ _ V L) as (sg2 & E2).
  destruct id1 as [|[a|] M]; cbn in D1; [contradiction| |].
  - destruct D1 as [HM Ha]. destruct (Z.eq_dec M 1) as [->|N1]; [|destruct HM as [HM| ->]].
    + right. exists 1%Z. unfold o2_combine in E. rewrite E1 in E. cbn [bind Z.eqb Pos.eqb] in E. apply Ret_inj in E. destruct (is_two id2); [|discriminate]. injection E as -> _. reflexivity.
    + left. destruct (combine_dih a M sg1 id2 sg2 Ha ltac:(lia) C1 L E2) as (id & E' & A). rewrite E in E'. apply Ret_inj in E'. subst id.
      unfold o2_combine in E. rewrite E1 in E. cbn [bind] in E. destruct (Z.eqb_spec M 1); [contradiction|].
      destruct id2 as [[?|[?|] ?]|[?|[k|] ?]]; try discriminate.
      * exfalso. inversion C1; subst; try lia. exact L.
      * destruct A as [A _]. injection A as -> _. split; [exact N1|reflexivity].
    + left. destruct (combine_o2 a sg1 id2 sg2 Ha C1 L E2) as (id & E' & A). rewrite E in E'. apply Ret_inj in E'. subst id.
      unfold o2_combine in E. rewrite E1 in E. cbn [bind Z.eqb] in E.
      destruct id2 as [[?|[t|] ?]|[?|[k|] ?]]; try discriminate.
      * destruct A as [A _]. injection A as -> _. split; [exact N1|]. inversion C1; subst; try lia. destruct L as [_ Ht]. pose proof PI_RGT_0 as P.
        destruct (Rlt_dec t (2 * PI)) as [Lt|Nt]; [left; split; [exact Lt|rewrite m_id by lra; reflexivity]|right]. assert (t = 2 * PI) as -> by lra. split; [reflexivity|].
        replace (m (2 * PI)) with 0; [ring|]. symmetry. apply m_eq_id; [lra|]. exists 1%Z. lra.
      * exfalso. inversion C1; subst; try lia. exact L.
  - exfalso. unfold o2_combine in E. rewrite E1 in E. cbn [bind] in E. destruct id2 as [[?|[t|] ?]|[?|[k|] ?]]; discriminate.
Qed.

(** the inclusion of a subgroup *)
Lemma any_embedding : forall G id sg, pvalid G -> listed G id -> any_subgroup G id = Ret sg ->
  is_embedding (pmember G) (pmul G) (pmember (ps_group sg)) (pmul (ps_group sg)) (ps_incl sg).
Proof.
  intros [G| |] [id|id] sg V L E; cbn in L; try contradiction; cbn [any_subgroup] in E.
  - apply bind_Ret in E as (s & Es & E). apply Ret_inj in E. subst sg. cbn [ps_group ps_incl]. destruct (subgroup_good G id s V L Es) as (_ & [M I P] & _). constructor.
    + intros [v|?|? ?] H; cbn in H; try contradiction. destruct (M v H) as (g & Eg & Mg). rewrite Eg. cbn [bind]. eauto.
    + intros [v|?|? ?] [w|?|? ?] H H' Q; cbn in H, H'; try contradiction. f_equal. apply I; try assumption.
      destruct (M v H) as (g & Eg & _), (M w H') as (g' & Eg' & _). rewrite Eg, Eg' in *. cbn [bind] in Q. apply Ret_inj in Q. injection Q as ->. reflexivity.
    + intros [v|?|? ?] [w|?|? ?] h12 g1 g2 H H' Q E1 E2; cbn in H, H'; try contradiction. rewrite pmul_fin in Q. apply bind_Ret in Q as (u & Eu & Q). apply Ret_inj in Q. subst h12.
      apply bind_Ret in E1 as (a & Ea & E1). apply Ret_inj in E1. subst g1. apply bind_Ret in E2 as (c & Ec & E2). apply Ret_inj in E2. subst g2.
      rewrite pmul_fin, (P v w u a c H H' Eu Ea Ec). reflexivity.
  - destruct (planar_embedding SO2 id L) as (x & Ex & P). rewrite E in Ex. apply Ret_inj in Ex. subst x. exact P.
  - destruct (planar_embedding O2 id L) as (x & Ex & P). rewrite E in Ex. apply Ret_inj in Ex. subst x. exact P.
Qed.

(** the restricted space *)
Theorem restrict_ok : forall linv sid s id, correct_inverse linv -> pdocumented O2 sid -> clear_axis sid -> mk_gspace2 linv sid = Ret s -> listed (gs_group s) id ->
  (forall b, joint_axis sid id b -> b <= 2 * PI /\ (b = 0 \/ / 10000000 <= b)) ->
  exists sg s', any_subgroup (gs_group s) id = Ret sg /\ gspace2_restrict linv s id = Ret (s', ps_incl sg, ps_restr sg) /\ gs_group s' = ps_group sg /\
    is_embedding (pmember (gs_group s)) (pmul (gs_group s)) (pmember (ps_group sg)) (pmul (ps_group sg)) (ps_incl sg) /\
    forall h, pmember (ps_group sg) h -> exists g q B B', ps_incl sg h = Ret g /\ pmember (gs_group s) g /\ ps_incl (gs_sub s') h = Ret q /\ ps_incl (gs_sub s) g = Ret q /\
      r_fun (gs_base s') h = Ret (2%nat, B') /\ r_fun (gs_base s) g = Ret (2%nat, B) /\ meq 2 2 B' B /\ plane_matrix q B'.
Proof.
  intros linv sid s id Hi HD HC Es L J. destruct (space_ok linv sid Hi HD HC) as (s0 & Es0 & Ei & Ep & H). rewrite Es in Es0. apply Ret_inj in Es0. subst s0.
  pose proof (ps_valid _ _ _ HD Ep) as V. destruct (listed_subgroup _ _ V L) as (sg & E2). destruct (combine_ok sid id (gs_sub s) sg HD Ep L E2) as (sid' & Ec & A & _).
  specialize (A (fun b Hb => proj1 (J b Hb))). destruct A as (HD' & sg' & Es' & Eg' & Inc).
  assert (clear_axis sid') as HC'.
  { destruct sid' as [|[b|] n]; cbn in HD'; try exact I. cbn. destruct (combine_axis _ _ _ _ _ HD Ep L Ec) as [Jb|(n' & Q)]; [exact (proj2 (J b Jb))|]. rewrite Q in HC. exact HC. }
  destruct (space_ok linv sid' Hi HD' HC') as (s' & Em & _ & Ep' & H'). rewrite Es' in Ep'. apply Ret_inj in Ep'.
  exists sg, s'. split; [exact E2|]. split. { unfold gspace2_restrict. rewrite Ei, Ec. cbn [bind]. unfold gs_group in *. rewrite E2. cbn [bind]. rewrite Em. reflexivity. }
  assert (gs_group s' = ps_group sg) as Gs by (unfold gs_group; rewrite <- Ep'; exact Eg').
  split; [exact Gs|]. pose proof (any_embedding _ _ _ V L E2) as Em2. split; [exact Em2|].
  intros h Hh. destruct (emb_mem _ _ _ _ _ Em2 h Hh) as (g & Eg & Mg). destruct (H g Mg) as (q & B & Eq & Mq & EB & PB).
  destruct (H' h) as (q' & B' & Eq' & _ & EB' & PB'); [rewrite Gs; exact Hh|].
  assert (q' = q) as ->. { rewrite <- Ep' in Eq'. rewrite (Inc h Hh), Eg in Eq'. cbn [bind] in Eq'. rewrite Eq in Eq'. apply Ret_inj in Eq'. auto. }
  exists g, q, B, B'. split; [exact Eg|]. split; [exact Mg|]. split; [exact Eq'|]. split; [exact Eq|]. split; [exact EB'|]. split; [exact EB|]. split; [|exact PB'].
  apply (plane_unique q); assumption.
Qed.

(** axes past a full turn are refused *)
Theorem restrict_refused : forall linv sid s id b, pdocumented O2 sid -> mk_gspace2 linv sid = Ret s -> listed (gs_group s) id -> joint_axis sid id b -> 2 * PI < b -> gspace2_restrict linv s id = Raise.
Proof.
  intros linv sid s id b HD Es L J Hb. unfold mk_gspace2 in Es. apply bind_Ret in Es as (sg1 & Ep & Es). apply bind_Ret in Es as (base & _ & Es). apply Ret_inj in Es. subst s.
  unfold gs_group in L. cbn [gs_sub] in L. pose proof (ps_valid _ _ _ HD Ep) as V. destruct (listed_subgroup _ _ V L) as (sg & E2).
  destruct (combine_ok sid id sg1 sg HD Ep L E2) as (sid' & Ec & _ & R). unfold gspace2_restrict, gs_group. cbn [gs_id gs_sub]. rewrite Ec. cbn [bind]. rewrite E2. cbn [bind].
  unfold mk_gspace2. rewrite (R b J Hb). reflexivity.
Qed.
