(** Concrete layers whose exports differ from them. *)
From Coq Require Import String Ascii.
From Coq Require Import Reals List ZArith Arith Bool Lia Lra Permutation.
From Verif Require Import LibRes LibMat LibMatS LibTrig FieldModel FinGroupModel ParamModel ParamProofs PlanarModel SpecPlanar
  IrrepModel SpecRep SpecIrrep IrrepProofs RepModel SpecRepr RepProofs RepThms
  KernelModel SpecKernel KernelProofs PolarModel SpecPolar PolarProofs PolarThms KernelPlanar
  BlocksModel SpecBlocks LayerModel BiasCor GridModel SpecGrid ImageModel SpecImage SpecRdConv RdConvModel RdConvProofs RdConvThms RdConvPlane RdConvCor RdConvEx SeqModel ExportModel ExportThms.
From Verif Require BlocksEx.
Import ListNotations.
Open Scope R_scope.

Lemma value_all : forall linv rt, correct_inverse linv -> triv = Ret rt ->
  exists sg s k, kernels_on_plane linv (IO2 None 4) 1 [0; 1] [1; 1] None (PI / 2) rt rt = Ret (Some (sg, s, k)) /\ (0 < sk_dim k)%nat /\ sk_size_out k = 1%nat /\ sk_size_in k = 1%nat /\
   (forall a, sk_get k 0 = Ret a -> fst (sa_shape a) = 1%nat) /\
   forall x M, sk_sample (p_irr O2) (circ_filters s (PI/2)) k x 0 = Ret M -> 0 < M 0%nat 0%nat.
Proof.
  intros linv rin Hinv Ei. unfold triv in Ei.
  cbn in Ei. apply Ret_inj in Ei; subst rin.
  destruct (c4_restr linv 0 _ Hinv eq_refl eq_refl eq_refl ltac:(cbn; lia) ltac:(cbn; lia)) as (d0 & E0 & I0 & S0 & M0).
  destruct (c4_restr linv 1 _ Hinv eq_refl eq_refl eq_refl ltac:(cbn; lia) ltac:(cbn; lia)) as (d1 & E1 & I1 & S1 & M1).
  cbn [circular ar_id Nat.ltb Nat.leb Z.of_nat Pos.of_succ_nat gi_size girrep_of ir_size] in E0, E1, S0, S1, I0, I1, M0.
  unfold kernels_on_plane. cbn [p_subgroup Z.eqb orb assert_ bind Z.ltb Z.compare ps_group].
  rewrite prof; cbn [bind].
  cbn -[mk_skb circ_filters mk_rwe]. set (s := {| sh_L := 1 |}).
  assert (exists b, mk_rwe (p_irr O2) (p_irr (Fin (Cyc 4))) (o2_restrict linv (IO2 None 4) (Fin (Cyc 4))) (p_tensor (Fin (Cyc 4))) (p_cg (Fin (Cyc 4)))
     (circ_filters s (PI/2)) [0%Z] [0%Z] = Ret (Some b) /\ b_dim b = 2%nat /\ b_js b = [[0%Z; 0%Z]] /\ b_dimh b [0%Z; 0%Z] = 2%nat /\ gi_size (b_in b) = 1%nat /\ gi_size (b_out b) = 1%nat /\
     forall Y, exists M, b_harm b [0%Z; 0%Z] 0%nat Y = Ret M /\ M 0%nat 0%nat = Y 0%nat 0%nat) as (b & Eb & Db & Jb & Dh & Si & So & Hb).
  { unfold mk_rwe. cbn -[o2_restrict rw_part rw_dim]. rewrite E0, E1. cbn -[o2_restrict rw_part rw_dim].
    unfold rw_part. rewrite I0, I1, S0, S1. cbn -[o2_restrict rw_coeff].
    eexists; split; [reflexivity|]. split; [reflexivity|]. split; [reflexivity|]. split; [reflexivity|]. split; [reflexivity|]. split; [reflexivity|].
    intros Y. cbn -[rw_coeff]. eexists. split; [reflexivity|]. unfold rw_coeff. cbn. rewrite M0 by lia. unfold mid. cbn. ring. }
  unfold mk_skb. cbn [repr_of_irrep girrep_of r_irreps gi_id ir_id in_pairs out_pairs]. rewrite Eb. cbn [bind].
  cbn -[circ_filters allclose]. rewrite Db. cbn -[circ_filters allclose].
  do 3 eexists. split; [reflexivity|]. split; [cbn; lia|]. split; [reflexivity|]. split; [reflexivity|]. split.
  { intros a E. unfold sk_get in E. apply assert_Ret in E as (_ & E). destruct (locate _ _ 0) as [[j i]|]; [|discriminate]. cbn [sk_pairs locate] in E.
    destruct (Nat.ltb i _); [|discriminate]. apply bind_Ret in E as (x & _ & E). apply Ret_inj in E. subst a. cbn [s_attr sa_shape fst sp_b]. exact So. }
  intros x M. unfold sk_sample. cbn [sk_pairs sk_js]. rewrite (allclose_meq 1 1 mid mid) by reflexivity. cbn [flat_map sp_b app]. rewrite Jb.
  change (order_js [0%Z; 0%Z] (circ_filters s (PI / 2)) ([[0%Z;0%Z]] ++ [])) with [[0%Z;0%Z]].
  cbn [locate]. unfold sk_dimh, list_sum. cbn [sk_pairs map]. unfold pair_dimh. cbn [sp_b]. rewrite Jb. cbn [id_mem existsb].
  change (id_eqb [0%Z;0%Z] [0%Z;0%Z] || false) with true. cbn [fold_right]. rewrite Dh. cbn [Nat.add Nat.ltb Nat.leb].
  assert (exists Y, harmonics (p_irr O2) (circ_filters s (PI / 2)) x [0%Z;0%Z] = Ret Y /\ 0 < Y 0%nat 0%nat) as (Y & EY & HY).
  { unfold harmonics. cbn -[circ_value]. eexists. split; [reflexivity|]. cbn -[norm2].
    apply Rmult_lt_0_compat; [unfold gp_sample; apply exp_pos|]. destruct (Rle_dec _ _); cbn; lra. }
  change (id_eqb [0%Z;0%Z] [0%Z;0%Z] || false) with true. cbv iota. rewrite Dh. cbv iota. rewrite EY. cbn [bind sp_b]. destruct (Hb Y) as (K & EK & VK). rewrite EK. cbn [bind]. intros E. apply Ret_inj in E. subst M. cbn [sk_cob sk_A sk_B].
  unfold embed. cbn [sp_op sp_ip sp_b]. rewrite Si, So. cbn. rewrite VK. exact HY.
Qed.

(** the first sampled element of the scalar fields is positive everywhere *)
Lemma scalars_positive : forall linv, correct_inverse linv -> exists a s l,
  elements_of (3 ^ 2) (r2_generator field linv (IO2 None 4) 1 [0; 1] [1; 1] 3 1) None false false = (a, s) :: l /\ forall q, (q < 9)%nat -> 0 < s 0%nat 0%nat q.
Proof.
  intros linv Hinv. destruct (value_first linv (field false) Hinv eq_refl) as (sg & s & kb & Ek & Dk & So & Si & Sh & Val).
  destruct (value_all linv (field false) Hinv eq_refl) as (sg' & s' & kb' & Ek' & _ & _ & _ & _ & Pos). rewrite Ek in Ek'. apply Ret_inj in Ek'. injection Ek' as <- <- <-.
  destruct (fields_ok false) as (Pf & S1 & S2).
  destruct (kernels_on_plane_ok linv (IO2 None 4) c4 1 [0; 1] [1; 1] None (PI / 2) (field false) (field false) Hinv (rot_doc 4 ltac:(left; lia)) c4_sub (rot_rot 4 c4 ltac:(left; lia) c4_sub)
    (fun j n Q ids => KernelCor.rot_sharp_restrict 4 1 j n Q ids) prof_ok sharp_quarter Pf Pf S1 S2) as (ob & act & Eo & Ea & H).
  rewrite Ek in Eo. apply Ret_inj in Eo. subst ob. destruct (H sg s kb eq_refl) as (-> & St & At). specialize (At eq_refl). destruct At as (attrs & Eit & La & Lg).
  unfold elements_of, r2_generator. rewrite Ek. cbn [bind]. set (F := circ_filters s (PI / 2)) in *.
  set (kern := fun idx x => match sk_sample (p_irr O2) F kb x idx with Ret K => K | Raise => mzero end).
  assert (Smp : forall idx x, (idx < sk_dim kb)%nat -> sk_sample (p_irr O2) F kb x idx = Ret (kern idx x)).
  { intros idx x Hi. destruct (St idx Hi (pid (ps_group c4)) x ltac:(cbn; lia)) as (_ & K & _ & _ & _ & _ & _ & EK & _). unfold kern. rewrite EK. reflexivity. }
  unfold sampled. rewrite Eit. cbn [bind].
  rewrite (mapM_Ret_map _ _ _ (fun idx => map (kern idx) (r2_points 3 1)) (seq 0 (sk_dim kb))).
  2:{ intros idx Hi. apply in_seq in Hi. apply mapM_Ret_map. intros x _. apply Smp. lia. }
  cbn [bind]. destruct (Lg 0%nat Dk) as (a & Ega & Ha). destruct attrs as [|a' attrs]; [discriminate|]. injection Ha as ->.
  destruct (sk_dim kb) as [|n] eqn:Edim; [lia|]. cbn [seq map List.combine fst snd].
  set (v := map (kern 0%nat) (r2_points 3 1)). match goal with |- exists _ _ _, kept _ None ?b = _ /\ _ => set (kk := b) end.
  set (e0 := {| el_attr := {| at_in := sa_ii a; at_out := sa_oo a; at_id := sa_idx a; at_rest := a |}; el_dim := fst (sa_shape a); el_sample := fun o i q => nth q v mzero o i |}).
  assert (Vq : forall q, (q < 9)%nat -> 0 < nth q v mzero 0%nat 0%nat).
  { intros q Hq. unfold v. rewrite (nth_indep _ mzero (kern 0%nat (0, 0))) by (rewrite map_length; exact Hq). rewrite map_nth. apply (Pos _ _ (Smp 0%nat _ ltac:(lia))). }
  assert (Eg : 1 <= energy (3 ^ 2) (kb_out kk) (kb_in kk) (el_sample e0)).
  { unfold kk, e0. cbn [kb_out kb_in el_sample]. rewrite So, Si. unfold energy. cbn [sumn]. rewrite !Rplus_0_l.
    set (f := fun p => nth p v mzero 0%nat 0%nat * nth p v mzero 0%nat 0%nat). change (1 <= sumn 9 f).
    assert (f 4%nat = 1) as F4.
    { unfold f, v, r2_points. change (nth 4 (map (kern 0%nat) (map (fun q => (grid_coords 3 1 q 0, grid_coords 3 1 q 1)) (seq 0 (3 ^ 2)))) mzero) with (kern 0%nat (grid_coords 3 1 4 0, grid_coords 3 1 4 1)).
      destruct centre as [-> ->]. destruct (Val _ (Smp 0%nat (0, 0) ltac:(lia))) as [-> | ->]; ring. }
    assert (forall p, 0 <= f p) as P0 by (intros p; unfold f; apply Rle_0_sqr).
    pose proof (P0 0%nat); pose proof (P0 1%nat); pose proof (P0 2%nat); pose proof (P0 3%nat); pose proof (P0 5%nat); pose proof (P0 6%nat); pose proof (P0 7%nat); pose proof (P0 8%nat).
    cbn [sumn]. rewrite F4. lra. }
  assert (Hacc : accepted (3 ^ 2) None kk e0 = true) by (apply accepted_big; [exact (Sh a Ega)|exact Eg]).
  unfold kept. change (kb_elements kk) with (e0 :: tl (kb_elements kk)). cbn [filter]. rewrite Hacc. cbn [map].
  do 3 eexists. split; [reflexivity|]. intros q Hq. unfold unit_sample. apply Rmult_lt_0_compat; [exact (Vq q Hq)|]. apply Rinv_0_lt_compat.
  unfold unit_scale. destruct (Rlt_dec _ _) as [_|_]; [lra|]. apply sqrt_lt_R0. assert (el_dim e0 = 1%nat) as -> by exact (Sh a Ega). cbn [INR]. unfold Rdiv. rewrite Rinv_1, Rmult_1_r. apply Rlt_le_trans with 1; [lra|exact Eg].
Qed.

(** weights that select the first sampled element, and weights that are zero *)
Lemma first_weight : forall {X} n (generator : bool -> bool -> res (option (BlocksModel.kbasis X nat))) b a s l,
  mk_blocks n label (asize field) Bool.eqb (fun l => l) (fun l => l) [false] [false] generator None = Ret b -> bb_dim b <> 0%nat ->
  (forall i o, In i [false] -> In o [false] -> exists r, generator i o = Ret r /\ forall kb, r = Some kb -> kb_out kb = asize field o /\ kb_in kb = asize field i) ->
  elements_of n generator None false false = (a, s) :: l ->
  (exists w f, length w = bb_dim b /\ BlocksModel.forward n label (asize field) b w = Ret f /\ forall q, f 0%nat 0%nat q = s 0%nat 0%nat q) /\
  (exists w f, length w = bb_dim b /\ BlocksModel.forward n label (asize field) b w = Ret f /\ forall q, f 0%nat 0%nat q = 0).
Proof.
  intros X n generator b a s l Eb Nz Sh El.
  destruct (BlocksCor.blocks_ok n label (asize field) (fun _ => 0%nat) Bool.eqb (fun l => l) (fun l => l) generator None [false] [false]
    eqb_true_iff (fun l => Permutation_refl l) (fun l => Permutation_refl l) (names_ok _) (names_ok _)) as (b' & infos & Eb' & _ & Li & Hd & _ & _ & Hall & Hf & _).
  - repeat constructor.
  - repeat constructor.
  - exact Sh.
  - rewrite Eb in Eb'. apply Ret_inj in Eb'. subst b'.
    pose proof (Hall 0%nat 0%nat 0%nat false false eq_refl eq_refl) as Hin. rewrite El in Hin. specialize (Hin ltac:(cbn; lia)).
    apply in_map_iff in Hin as (f0 & Es & Hin). apply In_nth_error in Hin as (k0 & Hk0).
    assert (Lk : (k0 < bb_dim b)%nat) by (rewrite <- Li; apply nth_error_Some; congruence).
    split.
    2:{ set (w := map (fun _ => 0) (seq 0 (bb_dim b))).
        assert (Lw : length w = bb_dim b) by (unfold w; rewrite map_length, seq_length; reflexivity).
        destruct (Hf w f0 Lw (fun _ => Nz)) as (f & Ef & Vf). exists w, f. split; [exact Lw|split; [exact Ef|]].
        intros q. rewrite Vf by (cbn; lia). apply sumn_0. intros k Hk. unfold w. rewrite (map_nth (fun _ => 0) _ 0%nat). ring. }
    set (w := map (fun k => if Nat.eqb k k0 then 1 else 0) (seq 0 (bb_dim b))).
    assert (Lw : length w = bb_dim b) by (unfold w; rewrite map_length, seq_length; reflexivity).
    destruct (Hf w f0 Lw (fun _ => Nz)) as (f & Ef & Vf). exists w, f. split; [exact Lw|split; [exact Ef|]].
    intros q. rewrite Vf by (cbn; lia).
    rewrite (sumn_ext _ _ (fun k => if Nat.eqb k k0 then element_at (asize field) (elements_of n generator None) [false] [false] f0 0 0 q else 0)).
    2:{ intros k Hk. unfold w. rewrite (nth_indep _ 0 ((fun k => if Nat.eqb k k0 then 1 else 0) 0%nat)) by (rewrite map_length, seq_length; exact Hk).
        rewrite (map_nth (fun k => if Nat.eqb k k0 then 1 else 0)), seq_nth by exact Hk. cbn [Nat.add].
        destruct (Nat.eqb_spec k k0) as [->|]; [rewrite (nth_error_nth _ _ f0 Hk0); ring|ring]. }
    rewrite (sumn_single _ k0); [|exact Lk|intros k _ Nk; rewrite (proj2 (Nat.eqb_neq k k0) Nk); reflexivity]. rewrite Nat.eqb_refl.
    unfold slot in Es. injection Es as Ho Hi Hb.
    unfold element_at. rewrite Ho, Hi, Hb. cbn [nth_error]. rewrite El. reflexivity.
Qed.

(** one scalar field to another *)
Lemma scalar_blocks : forall linv, correct_inverse linv -> exists b w f,
  mk_blocks (3 ^ 2) label (asize field) Bool.eqb (fun l => l) (fun l => l) [false] [false] (r2_generator field linv (IO2 None 4) 1 [0; 1] [1; 1] 3 1) None = Ret b /\
  bb_dim b <> 0%nat /\ length w = bb_dim b /\ BlocksModel.forward (3 ^ 2) label (asize field) b w = Ret f /\ forall q, (q < 9)%nat -> 0 < f 0%nat 0%nat q.
Proof.
  intros linv Hinv.
  assert (Ff : Forall (fun b => planar_repr (ps_group c4) (field b) /\ sharp (r_size (field b)) (r_inv (field b))) [false]) by (constructor; [destruct (fields_ok false) as (? & ? & ?); auto|constructor]).
  assert (Fo : Forall (fun b => planar_repr (ps_group c4) (field b) /\ sharp (r_size (field b)) (r_cob (field b))) [false]) by (constructor; [destruct (fields_ok false) as (? & ? & ?); auto|constructor]).
  destruct (proj2 (r2conv_built field label Bool.eqb (fun l => l) (fun l => l) eqb_true_iff (fun l => Permutation_refl l) (fun l => Permutation_refl l)
    4 c4 linv 1 [0; 1] [1; 1] (or_introl eq_refl) c4_sub Hinv prof_ok [false] [false] Ff Fo (names_ok _) (names_ok _) 3 1 PadZeros 1 1 1 false None)) as (c & Ec).
  { split; [left; lia|]. split; [left; lia|]. exists false, false. split; [left; reflexivity|]. split; [left; reflexivity|]. exact (scalars_kept linv Hinv). }
  unfold mk_r2conv in Ec. rewrite c4_sub in Ec. cbn [bind] in Ec.
  destruct (mk_rdconv_inv field label Bool.eqb (fun l => l) (fun l => l) _ None eqb_true_iff _ _ _ _ _ _ _ _ _ _ _ _ _ Ec) as (first & mb & b & _ & Eb & Nz & _ & G & _).
  destruct (G ltac:(lia)) as (Ef & _). cbn [repeat concat] in Ef. rewrite app_nil_r in Ef. subst first.
  destruct (scalars_positive linv Hinv) as (a & s & l & El & Ps).
  destruct (first_weight _ _ b a s l Eb Nz (RdConvCor.gen_shape field 4 c4 linv 1 [0; 1] [1; 1] (or_introl eq_refl) c4_sub Hinv prof_ok [false] [false] Ff Fo 3 1) El) as ((w & f & Lw & Ew & Vf) & _).
  exists b, w, f. split; [exact Eb|split; [exact Nz|split; [exact Lw|split; [exact Ew|]]]]. intros q Hq. rewrite Vf. exact (Ps q Hq).
Qed.
Lemma scalar_layer : forall linv mode, correct_inverse linv -> exists c w f,
  mk_r2conv field label Bool.eqb (fun l => l) (fun l => l) linv (IO2 None 4) 1 [0; 1] [1; 1] [false] [false] 3 1 mode 1 1 1 false None = Ret c /\
  length w = bb_dim (rc_expansion c) /\ BlocksModel.forward (3 ^ 2) label (asize field) (rc_expansion c) w = Ret f /\ forall q, (q < 9)%nat -> 0 < f 0%nat 0%nat q.
Proof.
  intros linv mode Hinv. destruct (scalar_blocks linv Hinv) as (b & w & f & Eb & Nz & Lw & Ef & Pf).
  eexists. exists w, f. split; [unfold mk_r2conv; rewrite c4_sub; cbn [bind]; unfold mk_rdconv; cbn [Nat.ltb Nat.leb bind mk_bias]; rewrite Eb; cbn [bind]; rewrite (proj2 (Nat.eqb_neq _ _) Nz); cbn [negb assert_ bind]; reflexivity|].
  auto.
Qed.

Definition ones : array R := {| shape := [1; 1; 2; 2]%nat; entry := fun _ => 1 |}.
(** with any other padding mode the image of ones is convolved with more ones *)
Lemma padding_mode_lost : forall linv mode, correct_inverse linv -> mode <> PadZeros -> exists c w m' t y y',
  mk_r2conv field label Bool.eqb (fun l => l) (fun l => l) linv (IO2 None 4) 1 [0; 1] [1; 1] [false] [false] 3 1 mode 1 1 1 false None = Ret c /\
  let m := new_layer (w, []) (ones, None) in
  conv_call field label Bool.eqb c m ([false], ones) = Ret ([false], y) /\ conv_export field label c m = Ret (m', t) /\ torch_conv_call t ones = Ret y' /\
  shape y = shape y' /\ valid (shape y) [0; 0; 0; 0]%nat /\ entry y [0; 0; 0; 0]%nat <> entry y' [0; 0; 0; 0]%nat.
Proof.
  intros linv mode Hinv Hm. destruct (scalar_layer linv mode Hinv) as (c & w & f & Ec & Lw & Ef & Pf). exists c, w.
  pose proof Ec as Ec'. unfold mk_r2conv in Ec'. rewrite c4_sub in Ec'. cbn [bind] in Ec'.
  destruct (mk_rdconv_inv field label Bool.eqb (fun l => l) (fun l => l) _ None eqb_true_iff _ _ _ _ _ _ _ _ _ _ _ _ _ Ec') as (first & mb & b & Eb1 & Eb & Nz & _ & G & Hc).
  destruct (G ltac:(lia)) as (Ef1 & _). cbn [repeat concat] in Ef1. rewrite app_nil_r in Ef1. subst first.
  cbn [mk_bias] in Eb1. apply Ret_inj in Eb1. subst mb.
  assert (bb_in b = [false]) as Bi by exact (built_in field label Bool.eqb (fun l => l) (fun l => l) _ None [false] [false] (3 ^ 2) b Eb).
  subst c. cbn [rc_expansion] in Ef.
  assert (Ex : forall bs, rc_expand field label {| rc_in := [false]; rc_out := [false]; rc_d := 2; rc_k := 3; rc_padding := 1; rc_mode := mode; rc_stride := 1; rc_dilation := 1; rc_groups := 1; rc_bias := None; rc_expansion := b |} w bs
     = Ret (reshape_filter 1 1 3 2 f, None)).
  { intros bs. unfold rc_expand. cbn [rc_k rc_d rc_expansion rc_out rc_bias]. rewrite Ef. cbn [bind]. rewrite Bi. reflexivity. }
  assert (P : 0 < f 0%nat 0%nat 0%nat /\ 0 < f 0%nat 0%nat 1%nat /\ 0 < f 0%nat 0%nat 2%nat /\ 0 < f 0%nat 0%nat 3%nat /\ 0 < f 0%nat 0%nat 6%nat) by (repeat split; apply Pf; lia).
  clear Ec' Eb Pf Bi Ef Lw.
  destruct mode; [contradiction| | |]; do 4 eexists; (split; [exact Ec|]); cbv zeta;
  unfold conv_call, conv_export, obj_export, obj_train, obj_used, conv_expand; cbn [new_layer ly_training ly_params negb fst snd orb]; rewrite Ex; cbn [bind ly_buffer fst snd rc_bias is_some];
  (split; [cbn -[Rmult Rplus]; reflexivity|]; split; [reflexivity|]; split; [cbn -[Rmult Rplus]; reflexivity|]; split; [reflexivity|]; split; [repeat constructor|]; cbn -[Rmult Rplus]; lra).
Qed.

(** a transposed layer of scalar fields of C_4 with stride 2, from 2 x 2 images *)
Lemma transposed_scalars : forall linv op, correct_inverse linv -> (op < 2)%nat -> exists c w y m' t,
  mk_rdconvt field label Bool.eqb (fun l => l) (fun l => l) (p_irr (ps_group c4)) (p_trivial_id (ps_group c4)) (r2_generator field linv (IO2 None 4) 1 [0; 1] [1; 1] 3 1)
    [false] [false] 2 3 1 op 2 1 1 false None = Ret c /\
  let m := new_layer (w, []) (ones, None) in
  convt_call field label Bool.eqb c m ([false], ones) = Ret ([false], y) /\ shape y = [1; 1; 3 + op; 3 + op]%nat /\ 0 < entry y [0; 0; 0; 0]%nat /\
  convt_export field label c m = Ret (m', t).
Proof.
  intros linv op Hinv Hop. destruct (scalar_blocks linv Hinv) as (b & w & f & Eb & Nz & Lw & Ef & Pf).
  assert (bb_out b = [false]) as Bo.
  { unfold mk_blocks, build_blocks in Eb. apply bind_Ret in Eb as (m1 & _ & Eb). apply bind_Ret in Eb as (ci & _ & Eb).
    apply bind_Ret in Eb as (co & _ & Eb). apply bind_Ret in Eb as ([[[cc ii] rr] dd] & _ & Eb). apply Ret_inj in Eb. subst b. reflexivity. }
  assert (mk_rdconvt field label Bool.eqb (fun l => l) (fun l => l) (p_irr (ps_group c4)) (p_trivial_id (ps_group c4)) (r2_generator field linv (IO2 None 4) 1 [0; 1] [1; 1] 3 1)
    [false] [false] 2 3 1 op 2 1 1 false None = Ret {| rt_in := [false]; rt_out := [false]; rt_d := 2; rt_k := 3; rt_padding := 1; rt_output_padding := op; rt_stride := 2; rt_dilation := 1; rt_groups := 1; rt_bias := None; rt_expansion := b |}) as Ec.
  { unfold mk_rdconvt. cbn [Nat.ltb Nat.leb bind mk_bias]. rewrite Eb. cbn [bind]. rewrite (proj2 (Nat.eqb_neq _ _) Nz). reflexivity. }
  assert (P : 0 < f 0%nat 0%nat 4%nat) by (apply Pf; lia). clear Eb Nz Lw Pf.
  destruct op as [|[|op]]; [| |lia]; (eexists; exists w; do 3 eexists; split; [exact Ec|]); clear Ec; cbv zeta;
  unfold convt_call, convt_export, obj_export, obj_train, obj_used, convt_expand; cbn [new_layer ly_training ly_params negb fst snd orb rt_k rt_d rt_expansion rt_in rt_out rt_bias];
  rewrite Ef; cbn [bind ly_buffer fst snd is_some]; rewrite Bo;
  (split; [cbn -[Rmult Rplus]; reflexivity|]; split; [reflexivity|]; split; [cbn -[Rmult Rplus]; lra|]; reflexivity).
Qed.

(** *** Linear: parameters set in evaluation mode reach the export, not the layer *)
Definition unit_gen (i o : bool) : res (option (BlocksModel.kbasis Datatypes.unit nat)) := Ret (Some (BlocksEx.kb_of 1 1 [(0, 0)%nat])).
Definition unit_x : array R := {| shape := [1; 1]%nat; entry := fun _ => 1 |}.
Lemma stale_linear : exists c w1 w2 m m' t y y' y'',
  mk_linear field label Bool.eqb (fun l => l) (fun l => l) (p_irr (ps_group c4)) (p_trivial_id (ps_group c4)) unit_gen [false] [false] false = Ret c /\
  obj_run (linear_expand field label c) true [Train false; SetParams (w2, [])] (new_layer (w1, []) (unit_x, None)) = Ret m /\
  linear_call field label Bool.eqb c m ([false], unit_x) = Ret ([false], y) /\ linear_export field label c m = Ret (m', t) /\
  linear (fst t) (snd t) unit_x = Ret y' /\ linear_call field label Bool.eqb c m' ([false], unit_x) = Ret ([false], y'') /\
  entry y [0; 0]%nat = 1 /\ entry y' [0; 0]%nat = 0 /\ entry y'' [0; 0]%nat = 0.
Proof.
  assert (El : elements_of 1 unit_gen None false false = [(el_attr (BlocksEx.elem 0 0), unit_sample 1 (BlocksEx.kb_of 1 1 [(0, 0)%nat]) (BlocksEx.elem 0 0))]).
  { unfold elements_of. cbn [unit_gen]. rewrite BlocksEx.delta_kept by (repeat constructor). reflexivity. }
  assert (Sh : forall i o, In i [false] -> In o [false] -> exists r, unit_gen i o = Ret r /\ forall kb, r = Some kb -> kb_out kb = asize field o /\ kb_in kb = asize field i).
  { intros i o [<-|[]] [<-|[]]. eexists. split; [reflexivity|]. intros kb E. injection E as <-. split; reflexivity. }
  destruct (BlocksCor.blocks_ok 1 label (asize field) (fun _ => 0%nat) Bool.eqb (fun l => l) (fun l => l) unit_gen None [false] [false]
    eqb_true_iff (fun l => Permutation_refl l) (fun l => Permutation_refl l) (names_ok _) (names_ok _)) as (b & infos & Eb & _ & Li & _ & _ & _ & Hall & _).
  - repeat constructor.
  - repeat constructor.
  - exact Sh.
  - assert (bb_dim b <> 0%nat) as Nz.
    { pose proof (Hall 0%nat 0%nat 0%nat false false eq_refl eq_refl) as Hin. rewrite El in Hin. specialize (Hin ltac:(cbn; lia)).
      rewrite <- Li. destruct infos; [destruct Hin|discriminate]. }
    destruct (first_weight 1 unit_gen b _ _ _ Eb Nz Sh El) as ((w1 & f1 & _ & E1 & V1) & (w2 & f2 & _ & E2 & V2)).
    assert (V : f1 0%nat 0%nat 0%nat = 1) by (rewrite V1, BlocksEx.delta_unit by lia; reflexivity). specialize (V2 0%nat).
    eexists. exists w1, w2. do 6 eexists.
    split; [unfold mk_linear; cbn [mk_bias bind]; rewrite Eb; reflexivity|].
    split; [cbn [obj_run obj_step]; unfold obj_train, linear_expand; cbn [new_layer ly_training ly_params negb fst snd orb ll_expansion ll_in ll_out ll_bias]; rewrite E1; cbn [bind]; reflexivity|].
    split; [cbn -[Rmult Rplus]; reflexivity|].
    split; [unfold linear_export, obj_export, obj_train, linear_expand; cbn [set_params ly_training ly_params negb fst snd orb ll_expansion ll_in ll_out ll_bias]; rewrite E2; cbn -[Rmult Rplus]; reflexivity|].
    split; [cbn -[Rmult Rplus]; reflexivity|]. split; [cbn -[Rmult Rplus]; reflexivity|]. cbn -[Rmult Rplus]. rewrite V, V2. repeat split; lra.
Qed.

(** *** a sequence of two convolutions *)
Lemma two_layers : forall linv, correct_inverse linv -> exists (cm : rdconv bool (sattr hattr) * @layer params expansion) s l y,
  zero_padded field label Bool.eqb (fun l => l) (fun l => l) cm /\ s_mods s = [("0"%string, cm); ("1"%string, cm)] /\
  seq_export (fun cm => e <- conv_export field label (fst cm) (snd cm) ;; Ret (snd e)) s = Ret l /\
  SeqModel.forward (fun cm => conv_call field label Bool.eqb (fst cm) (snd cm)) fst (same_type Bool.eqb) s ([false], ones) = Ret ([false], y) /\ shape y = shape ones.
Proof.
  intros linv Hinv. destruct (scalar_blocks linv Hinv) as (b & w & f & Eb & Nz & Lw & Ef & Pf).
  assert (bb_in b = [false]) as Bi by exact (built_in field label Bool.eqb (fun l => l) (fun l => l) _ None [false] [false] (3 ^ 2) b Eb).
  set (c := {| rc_in := [false]; rc_out := [false]; rc_d := 2; rc_k := 3; rc_padding := 1; rc_mode := PadZeros; rc_stride := 1; rc_dilation := 1; rc_groups := 1; rc_bias := None; rc_expansion := b |}).
  set (m := @new_layer params expansion (w, []) (ones, None)).
  assert (Ex : conv_expand field label c (w, []) = Ret (reshape_filter 1 1 3 2 f, None)).
  { unfold conv_expand, rc_expand. cbn [c rc_k rc_d rc_expansion rc_out rc_bias fst snd]. rewrite Ef. cbn [bind]. rewrite Bi. reflexivity. }
  exists (c, m), {| s_in := Some [false]; s_out := Some [false]; s_mods := [("0"%string, (c, m)); ("1"%string, (c, m))] |}.
  assert (U : obj_used (conv_expand field label c) m = Ret (reshape_filter 1 1 3 2 f, None)) by (unfold obj_used; cbn [m new_layer ly_training negb ly_params]; exact Ex).
  assert (C : forall x, shape x = shape ones -> exists y, conv_call field label Bool.eqb c m ([false], x) = Ret ([false], y) /\ shape y = shape ones).
  { intros [sx ex] Sx. cbn [shape ones] in Sx. subst sx. unfold conv_call. cbn [fst snd]. change (same_type Bool.eqb [false] (rc_in c)) with true. cbn [assert_ bind]. rewrite U. cbn [bind fst snd].
    unfold c; cbn [rc_mode rc_padding rc_groups rc_stride rc_dilation rc_out]. eexists. split; [unfold conv_forward; cbn -[Rmult Rplus]; reflexivity|reflexivity]. }
  assert (E : exists m' t, conv_export field label c m = Ret (m', t)).
  { destruct (C ones eq_refl) as (y & Ey & _). unfold conv_export, obj_export, obj_train. cbn [m new_layer ly_training orb ly_params]. rewrite Ex. cbn. do 2 eexists. reflexivity. }
  destruct E as (m' & t & E). destruct (C ones eq_refl) as (y1 & E1 & S1). destruct (C y1 S1) as (y2 & E2 & S2).
  eexists. exists y2. split; [|split; [reflexivity|split; [|split; [|exact S2]]]].
  - exists (p_irr (ps_group c4)), (p_trivial_id (ps_group c4)), (r2_generator field linv (IO2 None 4) 1 [0; 1] [1; 1] 3 1), [false], [false], 2%nat, 3%nat, 1%nat, 1%nat, 1%nat, 1%nat, false, None, (w, []), (ones, None), [].
    split; [|reflexivity]. cbn [fst]. unfold mk_rdconv. cbn [Nat.ltb Nat.leb bind mk_bias]. rewrite Eb. cbn [bind]. rewrite (proj2 (Nat.eqb_neq _ _) Nz). reflexivity.
  - unfold seq_export. cbn [s_mods mapM fst snd]. rewrite E. cbn [bind]. reflexivity.
  - unfold SeqModel.forward. cbn [s_in s_out s_mods map snd fold_left fst opt_eqb]. change (same_type Bool.eqb [false] [false]) with true. cbn [assert_ bind]. rewrite E1. cbn [bind]. rewrite E2. reflexivity.
Qed.
