(** Layers of C_4 in trained and evaluated states. *)
From Coq Require Import String.
From Coq Require Import Reals ZArith Bool List Arith Lia Lra Permutation.
From Verif Require Import LibRes LibMat FieldModel FinGroupModel PlanarModel SpecPlanar IrrepModel SpecIrrep RepModel SpecRepr KernelModel SpecKernel PolarModel SpecPolar KernelPlanar KernelPoint
  BlocksModel SpecBlocks LayerModel GridModel SpecGrid ImageModel SpecImage TransposedModel SpecRdConv RdConvModel RdConvThms RdConvCor RdConvEx SeqModel ExportModel ExportThms ExportEx LinearModel StateThms StateCor.
Import ListNotations.
Open Scope R_scope.

(** trained, evaluated, loaded, trained and evaluated again *)
Definition history (w w' : params) : list obj_op := [Train false; SetParams w'; Train true; SetParams w; Train false; Train false].

Lemma conv_reached : forall linv, correct_inverse linv -> exists c w m y,
  mk_r2conv field label Bool.eqb (fun l => l) (fun l => l) linv (IO2 None 4) 1 [0; 1] [1; 1] [false] [false] 3 1 PadCircular 1 1 1 false None = Ret c /\
  length w = bb_dim (rc_expansion c) /\ obj_run (conv_expand field label c) false (history (w, []) (w, [])) (new_layer (w, []) (ones, None)) = Ret m /\
  ly_training m = false /\ conv_call field label Bool.eqb c m ([false], ones) = Ret ([false], y).
Proof.
  intros linv Hinv. destruct (scalar_layer linv PadCircular Hinv) as (c & w & f & Ec & Lw & Ef & _).
  pose proof Ec as Ec'. unfold mk_r2conv in Ec'. rewrite c4_sub in Ec'. cbn [bind] in Ec'.
  destruct (mk_rdconv_inv field label Bool.eqb (fun l => l) (fun l => l) _ None eqb_true_iff _ _ _ _ _ _ _ _ _ _ _ _ _ Ec') as (first & mb & b & Eb1 & Eb & Nz & _ & G & Hc).
  destruct (G ltac:(lia)) as (Ef1 & _). cbn [repeat concat] in Ef1. rewrite app_nil_r in Ef1. subst first.
  cbn [mk_bias] in Eb1. apply Ret_inj in Eb1. subst mb.
  assert (bb_in b = [false]) as Bi by exact (built_in field label Bool.eqb (fun l => l) (fun l => l) _ None [false] [false] (3 ^ 2) b Eb).
  subst c. cbn [rc_expansion] in Ef.
  match type of Ec with _ = Ret ?cc => exists cc end. exists w.
  match type of Ec with _ = Ret ?cc => assert (Ex : conv_expand field label cc (w, []) = Ret (reshape_filter 1 1 3 2 f, None)) end.
  { unfold conv_expand, rc_expand. cbn [rc_k rc_d rc_expansion rc_out rc_bias fst snd]. rewrite Ef. cbn [bind]. rewrite Bi. reflexivity. }
  do 2 eexists. split; [exact Ec|]. split; [exact Lw|]. clear Ec Ec' Eb Bi Lw. split.
  - cbn [history obj_run obj_step obj_train new_layer ly_training ly_params orb]. rewrite Ex. cbn [bind]. cbn [obj_run obj_step obj_train set_params ly_training ly_params orb bind]. rewrite Ex. cbn [bind ly_training]. reflexivity.
  - split; [reflexivity|]. unfold conv_call, obj_used. cbn [ly_training negb ly_buffer fst snd]. cbn -[Rmult Rplus]. reflexivity.
Qed.

Lemma convt_reached : forall linv, correct_inverse linv -> exists c w m y,
  mk_rdconvt field label Bool.eqb (fun l => l) (fun l => l) (p_irr (ps_group c4)) (p_trivial_id (ps_group c4)) (r2_generator field linv (IO2 None 4) 1 [0; 1] [1; 1] 3 1)
    [false] [false] 2 3 1 0 2 1 1 false None = Ret c /\
  length w = bb_dim (rt_expansion c) /\ obj_run (convt_expand field label c) false (history (w, []) (w, [])) (new_layer (w, []) (ones, None)) = Ret m /\
  ly_training m = false /\ convt_call field label Bool.eqb c m ([false], ones) = Ret ([false], y) /\ shape y = [1; 1; 3; 3]%nat.
Proof.
  intros linv Hinv. destruct (scalar_blocks linv Hinv) as (b & w & f & Eb & Nz & Lw & Ef & Pf).
  pose proof (built_out _ _ _ _ _ _ _ _ _ _ _ Eb) as Bo.
  assert (mk_rdconvt field label Bool.eqb (fun l => l) (fun l => l) (p_irr (ps_group c4)) (p_trivial_id (ps_group c4)) (r2_generator field linv (IO2 None 4) 1 [0; 1] [1; 1] 3 1)
    [false] [false] 2 3 1 0 2 1 1 false None = Ret {| rt_in := [false]; rt_out := [false]; rt_d := 2; rt_k := 3; rt_padding := 1; rt_output_padding := 0; rt_stride := 2; rt_dilation := 1; rt_groups := 1; rt_bias := None; rt_expansion := b |}) as Ec.
  { unfold mk_rdconvt. cbn [Nat.ltb Nat.leb bind mk_bias]. rewrite Eb. cbn [bind]. rewrite (proj2 (Nat.eqb_neq _ _) Nz). reflexivity. }
  match type of Ec with _ = Ret ?cc => assert (Ex : convt_expand field label cc (w, []) = Ret (transpose01 (reshape_filter 1 1 3 2 f), None)) end.
  { unfold convt_expand. cbn [rt_k rt_d rt_expansion rt_out rt_in rt_bias fst snd]. rewrite Ef. cbn [bind]. rewrite Bo. reflexivity. }
  match type of Ec with _ = Ret ?cc => exists cc end. exists w. do 2 eexists. split; [exact Ec|]. split; [exact Lw|]. clear Ec Eb Bo Lw. split.
  - cbn [history obj_run obj_step obj_train new_layer ly_training ly_params orb]. rewrite Ex. cbn [bind]. cbn [obj_run obj_step obj_train set_params ly_training ly_params orb bind]. rewrite Ex. cbn [bind ly_training]. reflexivity.
  - split; [reflexivity|]. split; [unfold convt_call, obj_used; cbn [ly_training negb ly_buffer fst snd]; cbn -[Rmult Rplus]; reflexivity|reflexivity].
Qed.

(** a scalar and a vector to a scalar and a vector *)
Lemma fields_fit : Forall (fun a => planar_repr (Fin (Cyc 4)) (field a) /\ sharp (r_size (field a)) (r_inv (field a))) [false; true] /\
  Forall (fun a => planar_repr (Fin (Cyc 4)) (field a) /\ sharp (r_size (field a)) (r_cob (field a))) [false; true].
Proof. split; apply Forall_forall; intros a _; destruct (fields_ok a) as (? & ? & ?); auto. Qed.
Lemma linear_reached : exists c,
  mk_linear field label Bool.eqb (fun l => l) (fun l => l) (p_irr (Fin (Cyc 4))) (p_trivial_id (Fin (Cyc 4))) (point_generator field (p_irr (Fin (Cyc 4))) (p_tensor (Fin (Cyc 4))) (p_cg (Fin (Cyc 4))) (p_trivial_id (Fin (Cyc 4))))
    [false; true] [false; true] true = Ret c /\
  forall w w' zeros, length (fst w) = bb_dim (ll_expansion c) -> length (fst w') = bb_dim (ll_expansion c) -> exists m,
    obj_run (linear_expand field label c) true (history w w') (new_layer w zeros) = Ret m /\ ly_training m = false /\
    forall x B, shape x = [B; 3%nat] -> exists y, linear_call field label Bool.eqb c m ([false; true], x) = Ret ([false; true], y) /\ shape y = [B; 3%nat].
Proof.
  destruct fields_fit as [F1 F2]. pose proof (eq_refl : pvalid (Fin (Cyc 4))) as HG. assert (HR : rotations (Fin (Cyc 4))) by exact I.
  pose proof (proper_fields0 field (Fin (Cyc 4)) HG [false; true] [false; true] F1 F2) as Pr.
  pose proof (point_shapes field (Fin (Cyc 4)) HG HR [false; true] [false; true] F1 F2) as Gen.
  destruct (linear_built field label Bool.eqb (fun l => l) (fun l => l) _ eqb_true_iff (fun l => Permutation_refl l) (fun l => Permutation_refl l) (p_irr (Fin (Cyc 4))) _ _ _ (p_trivial_id (Fin (Cyc 4))) _ _ Pr (names_ok _) (names_ok _) Gen true) as (c & Ec).
  exists c. split; [exact Ec|]. intros w w' zeros L1 L2.
  pose proof (fun w L => proj2 (linear_expands field label Bool.eqb (fun l => l) (fun l => l) _ eqb_true_iff (fun l => Permutation_refl l) (fun l => Permutation_refl l) (p_irr (Fin (Cyc 4))) _ _ _ (p_trivial_id (Fin (Cyc 4))) _ _ Pr (names_ok _) (names_ok _) Gen true no_info c w Ec L)) as Exp.
  destruct (Exp w L1 ltac:(cbn; discriminate)) as (f & Ef). destruct (Exp w' L2 ltac:(cbn; discriminate)) as (f' & Ef').
  eexists. split; [|split].
  - cbn [history obj_run obj_step obj_train new_layer ly_training ly_params orb]. rewrite Ef. cbn [bind]. cbn [obj_run obj_step obj_train set_params ly_training ly_params orb bind]. rewrite Ef. cbn [bind ly_training obj_step obj_train ly_params orb]. rewrite Ef. cbn [bind]. reflexivity.
  - reflexivity.
  - intros x B Ex. apply (linear_accepts field label Bool.eqb (fun l => l) (fun l => l) _ eqb_true_iff (p_irr (Fin (Cyc 4))) (p_trivial_id (Fin (Cyc 4))) [false; true] [false; true] true c _ f x B Ec); [reflexivity|exists w; exact Ef|exact Ex].
Qed.
