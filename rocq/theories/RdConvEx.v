(** A concrete convolution layer: C_4 from a scalar and a vector field to two scalars. *)
From Coq Require Import String Ascii.
From Coq Require Import Reals List ZArith Arith Bool Lia Lra Permutation.
From Verif Require Import LibRes LibMat LibMatS LibTrig FieldModel FinGroupModel ParamModel ParamProofs PlanarModel SpecPlanar
  IrrepModel SpecRep SpecIrrep IrrepProofs RepModel SpecRepr RepProofs RepThms
  KernelModel SpecKernel KernelProofs PolarModel SpecPolar PolarProofs PolarThms KernelPlanar
  BlocksModel SpecBlocks LayerModel BiasCor GridModel SpecGrid ImageModel SpecImage SpecRdConv RdConvModel RdConvProofs RdConvThms RdConvPlane RdConvCor.
Import ListNotations.
Open Scope R_scope.

Lemma c4_restr : forall linv (j : nat) r, correct_inverse linv -> p_irr O2 (ar_id circular j) = Ret r ->
  p_restrict_irrep O2 (ar_id circular j) (IO2 None 4) = Ret ((gi_size r, mid), [[Z.of_nat j]]) ->
  gi_id r = ar_id circular j -> (0 < gi_size r)%nat -> irrep_ok (Fin (Cyc 4)) [Z.of_nat j] ->
  exists d, o2_restrict linv (IO2 None 4) (Fin (Cyc 4)) (ar_id circular j) = Ret d /\ r_irreps d = [[Z.of_nat j]] /\ r_size d = gi_size r /\ meq (gi_size r) (gi_size r) (r_inv d) mid.
Proof.
  intros linv j r Hinv Er Ex Ei Pos Ok. unfold o2_restrict. rewrite Er; cbn [bind]. unfold restrict_representation.
  cbn [repr_of_irrep r_irreps r_size r_cob]. rewrite Ei. cbn [mapM]. rewrite Ex; cbn [bind]. rewrite Er; cbn [bind fst].
  rewrite Nat.eqb_refl; cbn [assert_ bind map fst bsize flat_map snd app]. rewrite Nat.add_0_r, Nat.eqb_refl; cbn [assert_ bind].
  set (n := gi_size r) in *. unfold mk_repr.
  match goal with |- context [linv n ?q] => set (Q := q) end.
  assert (meq n n Q mid) as EQ.
  { unfold Q. rewrite mid_l. intros a b Ha Hb. cbn [bdiag]. rewrite (proj2 (Nat.ltb_lt _ _) Ha), (proj2 (Nat.ltb_lt _ _) Hb). reflexivity. }
  rewrite (proj2 (Nat.ltb_lt _ _) Pos); cbn [assert_ bind].
  destruct (Hinv n Q) as [H1 H2]. destruct H2 as (B & EB).
  { exists mid. split; rewrite EQ, mid_l; reflexivity. }
  rewrite EB; cbn [bind]. destruct (H1 B EB) as [I1 I2].
  rewrite (allclose_meq n n _ _ I1), (allclose_meq n n _ _ I2); cbn [assert_ bind length Nat.ltb Nat.leb].
  rewrite (allclose_meq n n _ _ EQ). unfold direct_sum_factory, irreps_size. cbn [mapM].
  destruct (p_irr_sound (Fin (Cyc 4)) [Z.of_nat j] eq_refl Ok) as (q & Eq & _). rewrite Eq; cbn [bind].
  eexists; split; [reflexivity|]. split; [reflexivity|]. split; [reflexivity|]. cbn [r_inv]. 
  rewrite EQ in I1. rewrite mid_l in I1. exact I1.
Qed.

Definition triv : res (repr pval) := s <- p_irr (Fin (Cyc 4)) [0%Z] ;; Ret (repr_of_irrep s).
Lemma prof : mk_profile [0; 1] [1; 1] = Ret {| gp_radii := [0; 1]; gp_sigma := [1; 1] |}.
Proof.
 unfold mk_profile. cbn [length Nat.eqb assert_ bind forallb].
    rewrite !(proj2 (Rleb_true 0 1)), (proj2 (Rleb_true 0 0)) by lra. cbn [andb assert_ bind].
    destruct (Rleb 1 0) eqn:H; [apply Rleb_true in H; lra|]. reflexivity. 
Qed.
Lemma value_first : forall linv rt, correct_inverse linv -> triv = Ret rt ->
  exists sg s k, kernels_on_plane linv (IO2 None 4) 1 [0; 1] [1; 1] None (PI / 2) rt rt = Ret (Some (sg, s, k)) /\ (0 < sk_dim k)%nat /\ sk_size_out k = 1%nat /\ sk_size_in k = 1%nat /\
   (forall a, sk_get k 0 = Ret a -> fst (sa_shape a) = 1%nat) /\
   forall M, sk_sample (p_irr O2) (circ_filters s (PI/2)) k (0,0) 0 = Ret M -> M 0%nat 0%nat = 1 \/ M 0%nat 0%nat = -1.
Proof.
  intros linv rin Hinv Ei. unfold triv in Ei.
  cbn in Ei. apply Ret_inj in Ei; subst rin.
  destruct (c4_restr linv 0 _ Hinv eq_refl eq_refl eq_refl ltac:(cbn; lia) ltac:(cbn; lia)) as (d0 & E0 & I0 & S0 & M0).
  destruct (c4_restr linv 1 _ Hinv eq_refl eq_refl eq_refl ltac:(cbn; lia) ltac:(cbn; lia)) as (d1 & E1 & I1 & S1 & M1).
  cbn [circular ar_id Nat.ltb Nat.leb Z.of_nat Pos.of_succ_nat gi_size girrep_of ir_size] in E0, E1, S0, S1, I0, I1, M0.
  unfold kernels_on_plane. cbn [p_subgroup Z.eqb orb assert_ bind Z.ltb Z.compare ps_group].
  rewrite prof; cbn [bind].
  cbn -[mk_skb circ_filters mk_rwe]. set (s := {| sh_L := 1 |}).
  assert (exists b, mk_rwe (p_irr O2) (p_irr (Fin (Cyc 4))) (o2_restrict linv (IO2 None 4) (Fin (Cyc 4))) (p_tensor (Fin (Cyc 4))) (p_cg (Fin (Cyc 4)))
     (circ_filters s (PI/2)) [0%Z] [0%Z] = Ret (Some b) /\ b_dim b = 2%nat /\ b_js b = [[0%Z; 0%Z]] /\ b_dimh b [0%Z; 0%Z] = 2%nat /\ gi_size (b_in b) = 1%nat /\ gi_size (b_out b) = 1%nat /\
     forall Y, Y 0%nat 0%nat = 1 -> exists M, b_harm b [0%Z; 0%Z] 0%nat Y = Ret M /\ (M 0%nat 0%nat = 1 \/ M 0%nat 0%nat = -1)) as (b & Eb & Db & Jb & Dh & Si & So & Hb).
  { unfold mk_rwe. cbn -[o2_restrict rw_part rw_dim]. rewrite E0, E1. cbn -[o2_restrict rw_part rw_dim].
    unfold rw_part. rewrite I0, I1, S0, S1. cbn -[o2_restrict rw_coeff].
    eexists; split; [reflexivity|]. split; [reflexivity|]. split; [reflexivity|]. split; [reflexivity|]. split; [reflexivity|]. split; [reflexivity|].
    intros Y HY. cbn -[rw_coeff]. eexists. split; [reflexivity|]. unfold rw_coeff. cbn. rewrite HY, M0 by lia. left. unfold mid. cbn. ring. }
  unfold mk_skb. cbn [repr_of_irrep girrep_of r_irreps gi_id ir_id in_pairs out_pairs]. rewrite Eb. cbn [bind].
  cbn -[circ_filters allclose]. rewrite Db. cbn -[circ_filters allclose].
  do 3 eexists. split; [reflexivity|]. split; [cbn; lia|]. split; [reflexivity|]. split; [reflexivity|]. split.
  { intros a E. unfold sk_get in E. apply assert_Ret in E as (_ & E). destruct (locate _ _ 0) as [[j i]|]; [|discriminate]. cbn [sk_pairs locate] in E.
    destruct (Nat.ltb i _); [|discriminate]. apply bind_Ret in E as (x & _ & E). apply Ret_inj in E. subst a. cbn [s_attr sa_shape fst sp_b]. exact So. }
  intros M. unfold sk_sample. cbn [sk_pairs sk_js]. rewrite (allclose_meq 1 1 mid mid) by reflexivity. cbn [flat_map sp_b app]. rewrite Jb. 
  change (order_js [0%Z; 0%Z] (circ_filters s (PI / 2)) ([[0%Z;0%Z]] ++ [])) with [[0%Z;0%Z]].
  cbn [locate]. unfold sk_dimh, list_sum. cbn [sk_pairs map]. unfold pair_dimh. cbn [sp_b]. rewrite Jb. cbn [id_mem existsb]. 
  change (id_eqb [0%Z;0%Z] [0%Z;0%Z] || false) with true. cbn [fold_right]. rewrite Dh. cbn [Nat.add Nat.ltb Nat.leb].
  assert (exists Y, harmonics (p_irr O2) (circ_filters s (PI / 2)) (0, 0) [0%Z;0%Z] = Ret Y /\ Y 0%nat 0%nat = 1) as (Y & EY & HY).
  { unfold harmonics. cbn -[circ_value]. eexists. split; [reflexivity|]. cbn.
    assert (norm2 (0, 0) = 0) as -> by (unfold norm2; cbn [fst snd]; replace (0 * 0 + 0 * 0) with 0 by ring; first [exact sqrt_0 | rewrite sqrt_0; reflexivity]).
    destruct (Rle_dec 0 _) as [_|N]; [|exfalso; apply N; left; apply Rinv_0_lt_compat; lra].
    unfold gp_sample. cbn. replace (- (1 / 2) * ((0 - 0) * ((0 - 0) * 1)) / (1 * (1 * 1))) with 0 by field. rewrite exp_0. ring. }
  change (id_eqb [0%Z;0%Z] [0%Z;0%Z] || false) with true. cbv iota. rewrite Dh. cbv iota. rewrite EY. cbn [bind sp_b]. destruct (Hb Y HY) as (K & EK & VK). rewrite EK. cbn [bind]. intros E. apply Ret_inj in E. subst M. cbn [sk_cob sk_A sk_B].
  unfold embed. cbn [sp_op sp_ip sp_b]. rewrite Si, So. cbn. exact VK.
Qed.

Lemma accepted_big : forall X S (kb : BlocksModel.kbasis X nat) e, el_dim e = 1%nat -> 1 <= energy S (kb_out kb) (kb_in kb) (el_sample e) -> accepted S None kb e = true.
Proof.
  intros X S kb e Ed Eg. unfold accepted. cbn [andb]. destruct (Rlt_dec _ _) as [_|N]; [reflexivity|]. exfalso. apply N. clear N.
  assert (energy S (kb_out kb) (kb_in kb) (unit_sample S kb e) = 1) as ->; [|lra].
  unfold unit_sample, unit_scale. rewrite Ed. cbn [INR]. set (E := energy S (kb_out kb) (kb_in kb) (el_sample e)) in *.
  assert (E / 1 = E) as -> by field. assert (0 < 1 / 10 ^ 12 <= 1) as [P1 P2].
  { split; [apply Rdiv_lt_0_compat; lra|]. apply Rmult_le_reg_r with (10 ^ 12); [lra|]. unfold Rdiv. rewrite Rmult_assoc, Rinv_l by lra. lra. }
  destruct (Rlt_dec E (1 / 10 ^ 12)) as [L|_]; [exfalso; lra|].
  assert (0 < sqrt E) as Q by (apply sqrt_lt_R0; lra). assert (sqrt E * sqrt E = E) as QQ by (apply sqrt_sqrt; lra).
  transitivity (E * (/ sqrt E * / sqrt E)).
  - unfold E, energy. rewrite <- sumn_scal_r. apply sumn_ext. intros a Ha. rewrite <- sumn_scal_r. apply sumn_ext. intros b Hb.
    rewrite <- sumn_scal_r. apply sumn_ext. intros q Hq. fold (energy S (kb_out kb) (kb_in kb) (el_sample e)). fold E. unfold Rdiv. ring.
  - rewrite <- QQ at 1. field. lra.
Qed.

(** *** the layer *)
(** [false] is the trivial representation, [true] the standard one *)
Definition field (b : bool) : repr pval :=
  match p_irr (Fin (Cyc 4)) [if b then 1%Z else 0%Z] with
  | Ret s => repr_of_irrep s
  | Raise => {| r_size := 0; r_irreps := []; r_cob := mid; r_inv := mid; r_fun := fun _ => Raise |}
  end.
Definition label (b : bool) : string := if b then "irrep_1"%string else "irrep_0"%string.
Definition ins := [false; true].
Definition outs := [false; false].
Definition c4 : psubgroup := {| ps_group := Fin (Cyc 4); ps_incl := so2_to_o2 (Fin (Cyc 4)); ps_restr := o2_to_so2 (Fin (Cyc 4)) |}.

Lemma c4_sub : p_subgroup O2 (IO2 None 4) = Ret c4.
Proof. reflexivity. Qed.
Lemma fields_ok : forall b, planar_repr (ps_group c4) (field b) /\ sharp (r_size (field b)) (r_inv (field b)) /\ sharp (r_size (field b)) (r_cob (field b)).
Proof.
  intros [|]; (split; [|split; left; reflexivity]).
  - apply (planar_irrep_repr _ [1%Z]); [reflexivity|cbn; lia|reflexivity].
  - apply (planar_irrep_repr _ [0%Z]); [reflexivity|cbn; lia|reflexivity].
Qed.
Lemma names_ok : forall l, told_apart label l.
Proof. intros l [|] [|] _ _ E; try reflexivity; vm_compute in E; discriminate. Qed.
Lemma prof_ok : exists p, mk_profile [0; 1] [1; 1] = Ret p.
Proof. eexists. exact prof. Qed.
Lemma centre : grid_coords 3 1 4 0 = 0 /\ grid_coords 3 1 4 1 = 0.
Proof. unfold grid_coords. cbn. lra. Qed.

Lemma scalars_kept : forall linv, correct_inverse linv -> elements_of (3 ^ 2) (r2_generator field linv (IO2 None 4) 1 [0; 1] [1; 1] 3 1) None false false <> [].
Proof.
  intros linv Hinv. destruct (value_first linv (field false) Hinv eq_refl) as (sg & s & kb & Ek & Dk & So & Si & Sh & Val).
  destruct (fields_ok false) as (Pf & S1 & S2).
  destruct (kernels_on_plane_ok linv (IO2 None 4) c4 1 [0; 1] [1; 1] None (PI / 2) (field false) (field false) Hinv (rot_doc 4 ltac:(left; lia)) c4_sub (rot_rot 4 c4 ltac:(left; lia) c4_sub)
    (fun j n Q ids => KernelCor.rot_sharp_restrict 4 1 j n Q ids) prof_ok sharp_quarter Pf Pf S1 S2) as (ob & act & Eo & Ea & H).
  rewrite Ek in Eo. apply Ret_inj in Eo. subst ob. destruct (H sg s kb eq_refl) as (-> & St & At). specialize (At eq_refl). destruct At as (attrs & Eit & La & Lg).
  unfold elements_of, r2_generator. rewrite Ek. cbn [bind]. set (F := circ_filters s (PI / 2)) in *.
  set (kern := fun idx x => match sk_sample (p_irr O2) F kb x idx with Ret K => K | Raise => mzero end).
  assert (Smp : forall idx x, (idx < sk_dim kb)%nat -> sk_sample (p_irr O2) F kb x idx = Ret (kern idx x)).
  { intros idx x Hi. destruct (St idx Hi (pid (ps_group c4)) x ltac:(cbn; lia)) as (_ & K & _ & _ & _ & _ & _ & EK & _). unfold kern. rewrite EK. reflexivity. }
  unfold sampled. rewrite Eit. cbn [bind].
  rewrite (mapM_Ret_map _ _ _ (fun idx => map (kern idx) (r2_points 3 1)) (seq 0 (sk_dim kb))).
  2:{ intros idx Hi. apply in_seq in Hi. apply mapM_Ret_map. intros x _. apply Smp. lia. }
  cbn [bind]. destruct (Lg 0%nat Dk) as (a & Ega & Ha). destruct attrs as [|a' attrs]; [discriminate|]. injection Ha as ->.
  destruct (sk_dim kb) as [|n] eqn:Edim; [lia|]. cbn [seq map List.combine fst snd].
  set (v := map (kern 0%nat) (r2_points 3 1)). match goal with |- kept _ None ?b <> [] => set (kk := b) end.
  assert (Hacc : accepted (3 ^ 2) None kk {| el_attr := {| at_in := sa_ii a; at_out := sa_oo a; at_id := sa_idx a; at_rest := a |}; el_dim := fst (sa_shape a); el_sample := fun o i q => nth q v mzero o i |} = true).
  { apply accepted_big; [exact (Sh a Ega)|]. unfold kk. cbn [kb_out kb_in el_sample]. rewrite So, Si. unfold energy. cbn [sumn]. rewrite !Rplus_0_l.
    set (f := fun p => nth p v mzero 0%nat 0%nat * nth p v mzero 0%nat 0%nat). change (1 <= sumn 9 f).
    assert (f 4%nat = 1) as F4.
    { unfold f, v, r2_points. change (nth 4 (map (kern 0%nat) (map (fun q => (grid_coords 3 1 q 0, grid_coords 3 1 q 1)) (seq 0 (3 ^ 2)))) mzero) with (kern 0%nat (grid_coords 3 1 4 0, grid_coords 3 1 4 1)).
      destruct centre as [-> ->]. destruct (Val _ (Smp 0%nat (0, 0) ltac:(lia))) as [-> | ->]; ring. }
    assert (forall p, 0 <= f p) as Pos by (intros p; unfold f; apply Rle_0_sqr).
    pose proof (Pos 0%nat); pose proof (Pos 1%nat); pose proof (Pos 2%nat); pose proof (Pos 3%nat); pose proof (Pos 5%nat); pose proof (Pos 6%nat); pose proof (Pos 7%nat); pose proof (Pos 8%nat).
    cbn [sumn]. rewrite F4. lra. }
  intros E. unfold kept in E. apply map_eq_nil in E.
  match type of Hacc with accepted _ _ _ ?e = _ => assert (In e (filter (accepted (3 ^ 2) None kk) (kb_elements kk))) as I by (apply filter_In; split; [left; reflexivity|exact Hacc]) end.
  rewrite E in I. destruct I.
Qed.

(** two output fields, circular padding *)
Theorem layer_built : forall linv, correct_inverse linv ->
  exists c, mk_r2conv field label Bool.eqb (fun l => l) (fun l => l) linv (IO2 None 4) 1 [0; 1] [1; 1] ins outs 3 1 PadCircular 1 1 1 true None = Ret c.
Proof.
  intros linv Hinv. apply (r2conv_built field label Bool.eqb (fun l => l) (fun l => l) eqb_true_iff (fun l => Permutation_refl l) (fun l => Permutation_refl l)
    4 c4 linv 1 [0; 1] [1; 1] (or_introl eq_refl) c4_sub Hinv prof_ok ins outs).
  - apply Forall_forall. intros b _. destruct (fields_ok b) as (? & ? & ?). auto.
  - apply Forall_forall. intros b _. destruct (fields_ok b) as (? & ? & ?). auto.
  - apply names_ok.
  - apply names_ok.
  - split; [left; lia|]. split; [left; lia|]. exists false, false. split; [left; reflexivity|]. split; [left; reflexivity|]. exact (scalars_kept linv Hinv).
Qed.
