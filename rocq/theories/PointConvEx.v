(** A concrete convolution on point clouds: C_4 from a scalar and a vector field to two scalars. *)
From Coq Require Import String Ascii.
From Coq Require Import Reals ZArith Bool List Arith Lia Lra Permutation.
From Verif Require Import LibRes LibPy LibMat LibMatS LibTrig FieldModel SpecField FinGroupModel SpecFinGroup FinGroupProofs ParamModel ParamProofs PlanarModel SpecPlanar PlanarProofs IrrepModel SpecRep SpecIrrep IrrepProofs
  RepModel SpecRepr RepProofs RepThms KernelModel SpecKernel KernelProofs PolarModel SpecPolar PolarProofs PolarThms KernelPlanar KernelCor
  BlocksModel SpecBlocks BlocksCor SamplerModel SpecSampler SamplerCor LayerModel SpecLayer BiasThms BiasCor GridModel SpecGrid ImageModel SpecImage SpecRdConv RdConvModel RdConvThms RdConvPlane RdConvCor RdConvEx
  SpecPointConv PointConvModel PointConvProofs PointConvThms PointConvEquiv PointConvPlane PointConvCor PointConvParams.
Import ListNotations.
Open Scope R_scope.

Definition flat (r : R) : R := 1.
Definition params := point_params (Some flat) (Some [0; 1]) (SList [1; 1]) None None None.
Lemma params_are : exists bf, params = Ret (bf, [0; 1], [1; 1], 1%Z).
Proof.
  unfold params. destruct (proj2 (params_accepted (Some flat) (Some [0; 1]) (SList [1; 1]) None None None)) as ([[[bf radii] sig] L] & E).
  { left. exists 0, [1]. auto. }
  pose proof (params_ok _ _ _ _ _ _ _ _ _ _ E) as (_ & K & S & (v & ((r & _ & Ev) & _) & (C & _)) & _). unfold flat in Ev. subst v.
  destruct K as [(K & _)|(K & _)]; [|discriminate]. injection K as <-. subst sig. specialize (C ltac:(lra)).
  assert (L = 1%Z) as ->. { assert (IZR L < IZR 2) as A by lra. assert (IZR 0 < IZR L) as B by lra. apply lt_IZR in A. apply lt_IZR in B. lia. }
  eauto.
Qed.

Notation gen linv := (point_generator field linv (IO2 None 4) 1 [0; 1] [1; 1]).
Lemma dots : forall b, dotless (label b).
Proof. intros [|]; cbn; repeat split; discriminate. Qed.
Lemma apart : forall a b, label a = label b -> a = b.
Proof. intros [|] [|] E; try reflexivity; discriminate. Qed.
Lemma gens : forall linv, correct_inverse linv -> forall i o, exists r, gen linv i o = Ret r /\ forall kb, r = Some kb -> kb_out kb = asize field o /\ kb_in kb = asize field i.
Proof.
  intros linv Hinv i o. destruct (fields_ok i) as (P1 & S1 & _). destruct (fields_ok o) as (P2 & _ & S2).
  destruct (point_generator_works 4 c4 linv (or_introl eq_refl) c4_sub Hinv field 1 [0; 1] [1; 1] prof_ok i o P1 P2 S1 S2) as (r & E & H).
  exists r. split; [exact E|]. intros kb K. destruct (H kb K) as (? & ? & _). auto.
Qed.
Lemma sizes : forall b, (0 < asize field b)%nat.
Proof. intros [|]; cbn; lia. Qed.

(** the filter keeps the kernels between scalars *)
Lemma kept : forall linv bf, correct_inverse linv -> params = Ret (bf, [0; 1], [1; 1], 1%Z) -> scaled_elements (gen linv) (Some bf) false false <> [].
Proof.
  intros linv bf Hinv Ep. unfold params in Ep. destruct (value_first linv (field false) Hinv eq_refl) as (sg & s & kb & Ek & Dk & _).
  destruct (fields_ok false) as (Pf & S1 & S2).
  destruct (kernels_on_plane_ok linv (IO2 None 4) c4 1 [0; 1] [1; 1] None (PI / 2) (field false) (field false) Hinv (rot_doc 4 ltac:(left; lia)) c4_sub (rot_rot 4 c4 ltac:(left; lia) c4_sub)
    (fun j n Q ids => KernelCor.rot_sharp_restrict 4 1 j n Q ids) prof_ok sharp_quarter Pf Pf S1 S2) as (ob & act & Eo & Ea & H).
  rewrite Ek in Eo. apply Ret_inj in Eo. subst ob. destruct (H sg s kb eq_refl) as (-> & St & At). specialize (At eq_refl). destruct At as (attrs & Eit & La & Lg).
  unfold scaled_elements, point_generator. rewrite Ek. cbn [bind]. unfold at_points. rewrite Eit. cbn [bind kb_elements].
  destruct (Lg 0%nat Dk) as (a & Ega & Ha). destruct attrs as [|a' attrs]; [discriminate|]. injection Ha as ->.
  destruct (sk_dim kb) as [|n] eqn:Edim; [lia|]. cbn [seq List.combine map fst snd].
  destruct (element_frequency _ _ _ _ _ _ _ _ _ _ _ _ _ Ek Ega) as (j & Hj & Ej & _).
  pose proof (params_ok _ _ _ _ _ _ _ _ _ _ Ep) as (_ & _ & _ & _ & _ & B).
  cbn [filter el_attr]. rewrite (proj2 (B _)); [discriminate|]. split; [discriminate|]. cbn [at_rest]. rewrite Ej. unfold flat.
  destruct j as [|[|j]]; [| |lia]; cbn [circular ar_id nth Nat.ltb Nat.leb Z.of_nat Pos.of_succ_nat]; [rewrite Rabs_R0|rewrite Rabs_R1]; lra.
Qed.

Definition build linv := mk_r2pointconv field label Bool.eqb (fun l => l) (fun l => l) linv (IO2 None 4) ins outs 1 true (SList [1; 1]) None None (Some flat) (Some [0; 1]) None.
(** two points, with an edge each way and a loop *)
Definition nodes : list (list R) := [[0; 0]; [1; 2]].
Definition values : list (list R) := [[1; 2; 3]; [4; 5; 6]].
Definition graph : list (nat * nat) := [(0, 1); (1, 0); (0, 0)]%nat.
Definition points : cloud bool := {| cl_type := ins; cl_rows := values; cl_coords := nodes |}.
Lemma points_ok : mk_cloud field 2 ins values nodes = Ret points.
Proof. reflexivity. Qed.

Theorem point_layer_built : forall linv, correct_inverse linv -> exists c, build linv = Ret c /\
  forall w b, length w = bb_dim (sm_blocks (pt_sampler c)) -> exists y, pt_forward field label Bool.eqb c w b points graph None = Ret y.
Proof.
  intros linv Hinv. destruct params_are as (bf & Ep).
  assert (Hc : exists c, mk_pointconv field label Bool.eqb (fun l => l) (fun l => l) (p_irr (Fin (Cyc 4))) (p_trivial_id (Fin (Cyc 4))) (gen linv) ins outs 2 1 true (Some bf) = Ret c).
  { unfold mk_pointconv. cbn [Nat.ltb Nat.leb bind].
    destruct (bias_built _ (p_irr (Fin (Cyc 4))) (pmember (Fin (Cyc 4))) (pmul (Fin (Cyc 4))) (pid (Fin (Cyc 4))) (p_trivial_id (Fin (Cyc 4))) (map field outs)) with (bias := true) as (m & Em & _).
    { apply Forall_map, Forall_forall. intros a _. exact (planar_proper (Fin (Cyc 4)) _ eq_refl (proj1 (fields_ok a))). }
    rewrite Em. cbn [bind].
    destruct (messages_ok label (asize field) (fun _ => 0%nat) Bool.eqb (fun l => l) (fun l => l) (gen linv) (Some bf) ins outs eqb_true_iff (fun l => Permutation_refl l) (fun l => Permutation_refl l))
      as (s & infos & Es & _ & Li & _ & _ & _ & Hall & _); auto using dots, apart, gens.
    { apply Forall_forall. intros a _. apply sizes. }
    { apply Forall_forall. intros a _. apply sizes. }
    rewrite Es. cbn [bind]. assert (bb_dim (sm_blocks s) <> 0%nat) as Nz.
    { specialize (Hall 0%nat 0%nat 0%nat false false eq_refl eq_refl). pose proof (kept linv bf Hinv Ep) as Kp.
      destruct (scaled_elements (gen linv) (Some bf) false false); [contradiction|]. specialize (Hall ltac:(cbn; lia)). rewrite <- Li. destruct infos; [destruct Hall|discriminate]. }
    apply Nat.eqb_neq in Nz. rewrite Nz. cbn [negb assert_ bind]. eauto. }
  destruct Hc as (c & Ec). exists c. split.
  - unfold build, mk_r2pointconv. unfold params in Ep. rewrite Ep. cbn [bind]. rewrite c4_sub. cbn [Z.leb Z.compare assert_ bind ps_group c4]. exact Ec.
  - intros w b Lw. apply (pointconv_runs field label Bool.eqb (fun l => l) (fun l => l) (gen linv) (Some bf) eqb_true_iff (fun l => Permutation_refl l) (fun l => Permutation_refl l) ins outs) with
      (irr := p_irr (Fin (Cyc 4))) (tid := p_trivial_id (Fin (Cyc 4))) (d := 2%nat) (groups := 1%nat) (bias := true) (first := ins) (rows := values) (coords := nodes); auto using dots, apart, gens.
    { apply Forall_forall. intros a _. apply sizes. }
    { apply Forall_forall. intros a _. apply sizes. }
    split; [lia|]. split; [repeat constructor|]. split; [discriminate|]. split; [exact Lw|]. split; [discriminate|]. lia.
Qed.
