(** The convolution layers on the plane are equivariant to the rotations of the grid. *)
From Coq Require Import String.
From Coq Require Import Reals ZArith Bool List Arith Lia Lra Permutation.
From Verif Require Import LibRes LibMat LibMatS LibTrig FieldModel SpecField FinGroupModel SpecFinGroup FinGroupProofs ParamModel ParamProofs PlanarModel SpecPlanar PlanarProofs IrrepModel SpecRep SpecIrrep IrrepProofs
  RepModel SpecRepr RepProofs RepThms KernelModel SpecKernel KernelProofs PolarModel SpecPolar PolarProofs PolarThms KernelPlanar KernelCor
  BlocksModel SpecBlocks BlocksCor LayerModel SpecLayer BiasThms BiasCor GridModel SpecGrid GridProofs GridThms ImageModel SpecImage ImageProofs MaskThms ConvThms RdConvModel RdConvProofs RdConvThms.
Import ListNotations.
Open Scope R_scope.

Lemma sharp_quarter : sharp 2 (rot2 (PI / 2)).
Proof.
  right. destruct (allclose 2 2 (rot2 (PI / 2)) mid) eqn:E; [|reflexivity]. exfalso.
  assert (H := proj1 (allclose_true _ _ _ _) E 0%nat 1%nat ltac:(lia) ltac:(lia)).
  cbn in H. rewrite sin_PI2 in H. unfold np_isclose in H. apply Rleb_true in H.
  rewrite Rabs_R0, Rmult_0_r, Rplus_0_r in H. rewrite Rminus_0_r, Rabs_Ropp, Rabs_R1 in H. lra.
Qed.

Section Rotations.
Variables (N : Z) (sg : psubgroup) (linv : nat -> mat -> res mat).
Hypothesis HN : (0 < N \/ N = -1)%Z.
Hypothesis Es : p_subgroup O2 (IO2 None N) = Ret sg.
Hypothesis Hinv : correct_inverse linv.
Notation G := (ps_group sg).

Lemma rot_case : (N = -1 /\ G = SO2 /\ ps_incl sg = so2_to_o2 SO2)%Z \/ ((0 < N)%Z /\ G = Fin (Cyc N) /\ ps_incl sg = so2_to_o2 (Fin (Cyc N))).
Proof.
  cbn [p_subgroup assert_ bind] in Es. apply assert_Ret in Es as [_ E].
  destruct (Z.eqb_spec N (-1)) as [H|H]; apply Ret_inj in E; rewrite <- E; [left|right]; cbn [ps_group ps_incl]; (split; [lia|split; reflexivity]).
Qed.
Lemma rot_doc : pdocumented O2 (IO2 None N).
Proof. exact HN. Qed.
Lemma rot_valid : pvalid G.
Proof. exact (ps_valid O2 _ sg rot_doc Es). Qed.
Lemma rot_rot : rotations G.
Proof. destruct rot_case as [(_ & -> & _)|(_ & -> & _)]; exact I. Qed.
Lemma rot_incl : forall h, pmember G h -> exists t, ps_incl sg h = Ret (VO 0 t) /\ pmember O2 (VO 0 t).
Proof.
  intros h Hh. destruct rot_case as [(_ & EG & ->)|(L & EG & ->)]; rewrite EG in Hh.
  - destruct h as [|t|]; try contradiction. rewrite so2_to_o2_so2. eexists; split; [reflexivity|]. split; [auto|apply m_range].
  - destruct h as [[r|]| |]; try contradiction. rewrite so2_to_o2_cyc by exact L. eexists; split; [reflexivity|]. split; [auto|apply m_range].
Qed.

(** the action on the plane: the rotation by the angle of the element *)
Lemma rot_base : exists base, r2_action linv (IO2 None N) sg = Ret base /\
  forall h t, pmember G h -> ps_incl sg h = Ret (VO 0 t) -> exists B, r_fun base h = Ret (2%nat, B) /\ meq 2 2 B (rot2 t).
Proof.
  destruct (o2_restrict_sound linv (IO2 None N) sg [1%Z; 1%Z] Hinv rot_doc Es (circ_ok 1)) as (s & r & Ei & Er & Sz & _ & _ & Hr).
  { intros n Q ids. exact (rot_sharp_restrict N 1 1 n Q ids (le_n 1)). }
  exists r. split; [exact Er|]. intros h t Hh Ht. destruct (Hr h Hh) as (g & D & D' & Eg & Mg & ED' & ED & MD).
  rewrite Ht in Eg. apply Ret_inj in Eg. subst g.
  destruct (circ_irrep 1) as (s' & Es' & Ss & Hs). change (ar_id circular 1) with [1%Z; 1%Z] in Es'. rewrite Ei in Es'. apply Ret_inj in Es'. subst s'.
  destruct (Hs 0%Z t Mg) as (D2 & ED2 & MD2). rewrite ED in ED2. apply Ret_inj in ED2. injection ED2 as <-.
  cbn [circular ar_dim Nat.ltb Nat.leb] in Ss. rewrite Ss in *. rewrite Sz in ED'. exists D'. split; [exact ED'|].
  intros i j Hi Hj. rewrite (MD i j Hi Hj), (MD2 i j Hi Hj). unfold o2_mat; cbn [Nat.ltb Nat.leb Z.of_nat Pos.of_succ_nat].
  unfold rot2. cbn [kmat]. unfold rsign; cbn [Z.eqb]. rewrite Rmult_1_l. destruct i as [|[|i]]; destruct j as [|[|j]]; try lia; unfold mat2; ring.
Qed.

(** rotations commute with the rotation to the axis *)
Lemma rot_axis : forall axis act h t x, sharp 2 (rot2 axis) -> circ_action linv axis = Ret act -> pmember G h -> ps_incl sg h = Ret (VO 0 t) ->
  act_of act (VO 0 t) x = move (rot2 t) x.
Proof.
  intros axis act h t x Sh Ea Hh Ht. destruct (circ_action_ok linv axis Hinv Sh) as (r & Er & Hr). rewrite Ea in Er. apply Ret_inj in Er. subst r.
  destruct (rot_incl h Hh) as (t' & Et & Mt). rewrite Ht in Et. apply Ret_inj in Et. injection Et as <-.
  destruct (Hr 0%Z t Mt) as (M & EM & MM). unfold act_of. rewrite EM.
  assert (meq 2 2 M (rot2 t)) as E.
  { intros i j Hi Hj. rewrite (MM i j Hi Hj). unfold mmul, mtr, rot2. cbn [kmat sumn]. unfold rsign; cbn [Z.eqb]. rewrite Rmult_1_l.
    pose proof (sin2_cos2 axis) as P. unfold Rsqr in P. set (c := cos axis) in *. set (s := sin axis) in *. set (a := cos t). set (q := sin t).
    destruct i as [|[|i]]; destruct j as [|[|j]]; try lia; unfold mat2; cbn.
    - transitivity (a * (s * s + c * c)); [ring|rewrite P; ring].
    - transitivity (- q * (s * s + c * c)); [ring|rewrite P; ring].
    - transitivity (q * (s * s + c * c)); [ring|rewrite P; ring].
    - transitivity (a * (s * s + c * c)); [ring|rewrite P; ring]. }
  unfold move. rewrite !E by lia. reflexivity.
Qed.

Lemma kernels_shape : forall L radii sigma flt axis rin rout s k, kernels_on_plane linv (IO2 None N) L radii sigma flt axis rin rout = Ret (Some (sg, s, k)) ->
  sk_size_out k = r_size rout /\ sk_size_in k = r_size rin.
Proof.
  intros L radii sigma flt axis rin rout s k H. unfold kernels_on_plane in H.
  apply bind_Ret in H as (sg' & _ & H). apply bind_Ret in H as (p & _ & H). apply bind_Ret in H as ([s'|] & _ & H); [|discriminate].
  apply bind_Ret in H as ([k'|] & Hk & H); [|discriminate]. apply Ret_inj in H. injection H as _ _ <-.
  unfold mk_skb in Hk. apply bind_Ret in Hk as (ps & _ & Hk). destruct (Nat.eqb _ 0); [discriminate|]. apply Ret_inj in Hk. injection Hk as <-. split; reflexivity.
Qed.

Lemma pid_member : pmember G (pid G).
Proof. destruct rot_case as [(_ & -> & _)|(L & -> & _)]; cbn; [pose proof PI_RGT_0; lra|lia]. Qed.

Section Kernels.
Context {A : Type}.
Variable rep : A -> repr pval.
Variables (L : nat) (radii sigma : list R) (k dil : nat).
Hypothesis Hp : exists p, mk_profile radii sigma = Ret p.
Variables i o : A.
Hypothesis Pi : planar_repr G (rep i).
Hypothesis Po : planar_repr G (rep o).
Hypothesis Si : sharp (r_size (rep i)) (r_inv (rep i)).
Hypothesis So : sharp (r_size (rep o)) (r_cob (rep o)).

Lemma ravel_lt : forall n t, valid (repeat k n) t -> (ravel k t < k ^ n)%nat.
Proof.
  intros n t V. apply valid_nth in V as (Lt & V). rewrite repeat_length in *.
  assert (W : forall i, (i < n)%nat -> (nth i t 0 < k)%nat) by (intros j Hj; specialize (V j Hj); rewrite nth_repeat_lt in V by exact Hj; exact V).
  clear V. revert n Lt W. induction t as [|a t IH] using rev_ind; intros n Lt W; [cbn in Lt; subst n; cbn; lia|].
  rewrite app_length in Lt; cbn in Lt. rewrite ravel_snoc. destruct n as [|n]; [lia|].
  specialize (IH n ltac:(lia)). assert (ravel k t < k ^ n)%nat by (apply IH; intros j Hj; specialize (W j ltac:(lia)); rewrite app_nth1 in W by lia; exact W).
  specialize (W n ltac:(lia)). rewrite app_nth2 in W by lia. replace (n - length t)%nat with 0%nat in W by lia. cbn [nth] in W.
  cbn [Nat.pow]. apply Nat.lt_le_trans with ((ravel k t + 1) * k)%nat; [lia|]. rewrite (Nat.mul_comm k). apply Nat.mul_le_mono_r. lia.
Qed.

Lemma generator_works : exists r, r2_generator rep linv (IO2 None N) L radii sigma k dil i o = Ret r /\
  forall kb, r = Some kb -> kb_out kb = asize rep o /\ kb_in kb = asize rep i /\
    forall e, In e (kb_elements kb) -> forall h t, pmember G h -> ps_incl sg h = Ret (VO 0 t) -> forall M, meq 2 2 M (rot2 t) ->
      along 2 k dil (asize rep o) (asize rep i) M (value_at h (rep i)) (value_at h (rep o)) (el_sample e).
Proof.
  destruct (kernels_on_plane_ok linv (IO2 None N) sg L radii sigma None (PI / 2) (rep i) (rep o) Hinv rot_doc Es rot_rot
    (fun j n Q ids => rot_sharp_restrict N L j n Q ids) Hp sharp_quarter Pi Po Si So) as (ob & act & Eo & Ea & H).
  unfold r2_generator. rewrite Eo. cbn [bind]. destruct ob as [[[sg' s] kb]|]; [|exists None; split; [reflexivity|discriminate]].
  destruct (H sg' s kb eq_refl) as (-> & St & At). specialize (At eq_refl). destruct At as (attrs & Eit & La & _).
  destruct (kernels_shape _ _ _ _ _ _ _ _ _ Eo) as [So' Si']. set (F := circ_filters s (PI / 2)) in *.
  set (kern := fun idx x => match sk_sample (p_irr O2) F kb x idx with Ret K => K | Raise => mzero end).
  assert (Smp : forall idx x, (idx < sk_dim kb)%nat -> sk_sample (p_irr O2) F kb x idx = Ret (kern idx x)).
  { intros idx x Hi. destruct (St idx Hi (pid G) x pid_member) as (_ & K & _ & _ & _ & _ & _ & EK & _). unfold kern. rewrite EK. reflexivity. }
  unfold sampled. rewrite Eit. cbn [bind].
  rewrite (mapM_Ret_map _ _ _ (fun idx => map (kern idx) (r2_points k dil)) (seq 0 (sk_dim kb))).
  2:{ intros idx Hi. apply in_seq in Hi. apply mapM_Ret_map. intros x _. apply Smp. lia. }
  cbn [bind]. eexists. split; [reflexivity|]. intros kb' Ekb. injection Ekb as <-. cbn [kb_out kb_in kb_elements].
  split; [exact So'|]. split; [exact Si'|]. intros e He h t Hh Ht M MM.
  apply in_map_iff in He. destruct He as ([at' vals] & <- & He). cbn [fst snd el_sample].
  apply in_combine_r in He. apply in_map_iff in He. destruct He as (idx & <- & Hidx). apply in_seq in Hidx.
  exists (fun x => kern idx (x 0%nat, x 1%nat)). split; [|split].
  - intros x y E a b _ _. rewrite (E 0%nat), (E 1%nat) by lia. reflexivity.
  - intros x a b Ha Hb. destruct (St idx ltac:(lia) h (x 0%nat, x 1%nat) Hh) as (f & K & K' & Ao & Bi & Bin & Ef & EK & EK' & EA & EB & [I1 I2] & MK).
    rewrite Ht in Ef. cbn [bind] in Ef. apply Ret_inj in Ef. subst f.
    rewrite (rot_axis (PI / 2) act h t _ sharp_quarter Ea Hh Ht) in EK'.
    assert (move (rot2 t) (x 0%nat, x 1%nat) = (mvec 2 M x 0%nat, mvec 2 M x 1%nat)) as Em.
    { unfold move, mvec. cbn [sumn fst snd]. rewrite !MM by lia. f_equal; ring. }
    rewrite Em in EK'. unfold kern at 1. rewrite EK'. unfold kern. rewrite EK. unfold value_at. rewrite EA, EB.
    unfold asize in *. transitivity (mmul (r_size (rep i)) K' Bi a b); [reflexivity|].
    transitivity (mmul (r_size (rep o)) Ao K a b); [|reflexivity].
    assert (meq (r_size (rep o)) (r_size (rep i)) (mmul (r_size (rep i)) K' Bi) (mmul (r_size (rep o)) Ao K)) as X; [|exact (X a b Ha Hb)].
    rewrite MK, mul_assoc, I2, LibMat.mid_r. reflexivity.
  - intros a b q Ha Hb V. pose proof (ravel_lt 2 q V) as Lq. unfold r2_points. rewrite map_map.
    set (ff := fun q0 => kern idx (grid_coords k dil q0 0%nat, grid_coords k dil q0 1%nat)).
    rewrite nth_indep with (d' := ff 0%nat) by (rewrite map_length, seq_length; exact Lq).
    rewrite map_nth, seq_nth by exact Lq. reflexivity.
Qed.
End Kernels.
End Rotations.
