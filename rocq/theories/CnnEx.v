(** A concrete network: a norm nonlinearity, a convolution, a pointwise nonlinearity, pooling. *)
From Coq Require Import String.
From Coq Require Import Reals ZArith Lia Lra Bool List Arith Permutation.
From Verif Require Import LibRes LibMat LibMatS FieldModel SpecField FieldProofs NonlinModel SpecNonlin NonlinProofs SpecPool PoolModel PoolThms NormThms FinGroupModel ParamModel PlanarModel SpecPlanar PlanarProofs RepModel SpecRepr RepProofs RepThms
  KernelModel KernelPlanar PolarModel BlocksModel LayerModel
  GridModel SpecGrid GridProofs GridThms ImageModel SpecImage ImageProofs SPoolModel SpecSPool SPoolProofs SPoolThms
  RdConvModel SpecRdConv RdConvProofs RdConvThms RdConvCor RdConvEx SeqModel NetModel SpecNet CnnModel SpecCnn CnnProofs CnnThms.
Import ListNotations.
Open Scope R_scope.

Definition all_kinds (b : bool) : list nonlin := [NL_norm; NL_pointwise].
Definition normed : res norm_module := mk_norm (asize field) all_kinds ins "n_relu" true.
Definition rectified : res (list bool * (R -> R)) := mk_pointwise all_kinds outs "p_relu".
Definition pooled : res (@pool_module bool) := mk_pool (asize field) all_kinds true outs.

Lemma field_scalar : scalar_repr (ps_group c4) (field false).
Proof. split; [reflexivity|]. intros h B Mh E. destruct h as [[z|f z]|t|f t]; cbn in Mh, E; try contradiction. injection E as <-. reflexivity. Qed.
Lemma field_permutes : permutation_repr (ps_group c4) (field false).
Proof.
  intros h B Mh E. pose proof (proj2 field_scalar h B Mh E) as V. change (r_size (field false)) with 1%nat. exists (fun j => j). split; [auto|]. split; [auto|].
  intros i j Hi Hj. assert (i = 0 /\ j = 0)%nat as (-> & ->) by lia. exact V.
Qed.
Lemma field_orthogonal : forall b, orthogonal_repr (ps_group c4) (field b).
Proof.
  intros b h B Mh E. destruct (planar_irr_data (ps_group c4) [if b then 1%Z else 0%Z] eq_refl ltac:(destruct b; cbn; lia)) as (r & Er & _ & _ & _ & Or).
  assert (Ef : field b = repr_of_irrep r) by (unfold field; change (p_irr (Fin (Cyc 4)) [if b then 1%Z else 0%Z]) with (p_irr (ps_group c4) [if b then 1%Z else 0%Z]); rewrite Er; reflexivity).
  rewrite Ef in *. destruct (Or h Mh) as (D & ED & OD & _). cbn [repr_of_irrep r_fun r_size] in E |- *. rewrite ED in E. apply Ret_inj in E. injection E as <-. exact OD.
Qed.

(** three pictures of a scalar and a vector field on 5 x 5 pixels; the output is one pixel *)
Definition net (c : rdconv bool (sattr hattr)) (m1 : norm_module) (m2 : list bool * (R -> R)) (m3 : pool_module) (w b lb : list R) : list layer :=
  [LNorm m1 lb [0; 0; 0]; LConv c w b; LPoint m2; LMax outs (max_init 3 (Some 2%nat) 0 1 false); LAvg outs 2 None 0 false; LGroupPool m3 false [0; 0]].
(** SequentialModule(...) *)
Definition wrap (ls : list (@layer bool (sattr hattr))) : seq_state layer (list bool) :=
  {| s_in := Some ins; s_out := Some outs; s_mods := List.combine (map str (seq 0 (length ls))) ls |}.

Lemma parts : exists m1 m2 m3, normed = Ret m1 /\ rectified = Ret m2 /\ pooled = Ret m3.
Proof. do 3 eexists. split; [reflexivity|]. split; reflexivity. Qed.

Section Net.
Variable linv : nat -> mat -> res mat.
Hypothesis Hinv : correct_inverse linv.
Notation run := (@layer_run bool (sattr hattr) pval field label Bool.eqb).
Notation ready := (ready field label Bool.eqb (fun l => l) (fun l => l) all_kinds linv 4 (ps_group c4)).

Lemma all_planar : forall ft, Forall (fun a => planar_repr (ps_group c4) (field a)) ft.
Proof. intros ft. apply Forall_forall. intros a _. apply fields_ok. Qed.
Lemma outs_permute : Forall (fun a => permutation_repr (ps_group c4) (field a)) outs.
Proof. repeat constructor; apply field_permutes. Qed.

Lemma net_ready : forall c m1 m2 m3 w b lb x,
  mk_r2conv field label Bool.eqb (fun l => l) (fun l => l) linv (IO2 None 4) 1 [0; 1] [1; 1] ins outs 3 1 PadCircular 1 1 1 true None = Ret c ->
  normed = Ret m1 -> rectified = Ret m2 -> pooled = Ret m3 -> length w = bb_dim (rc_expansion c) -> length lb = 2%nat -> shape x = [2; 3; 5; 5]%nat ->
  from_args layer_in layer_out (same_type Bool.eqb) (fun _ => false) (net c m1 m2 m3 w b lb) = Ret (wrap (net c m1 m2 m3 w b lb)) /\
  throughout run ready (net c m1 m2 m3 w b lb) (ins, x) /\
  exists y, forward run fst (same_type Bool.eqb) (wrap (net c m1 m2 m3 w b lb)) (ins, x) = Ret (outs, y) /\ shape y = [2; 2; 1; 1]%nat.
Proof.
  intros c m1 m2 m3 w b lb x Ec E1 E2 E3 Lw Ll Sx.
  assert (Tq : forall a b, same_type Bool.eqb a b = true <-> a = b) by (apply same_type_ok; exact eqb_true_iff).
  assert (Tr : forall a, same_type Bool.eqb a a = true) by (intros a; apply Tq; reflexivity).
  assert (R1 : exists y1, run (LNorm m1 lb [0; 0; 0]) (ins, x) = Ret (ins, y1) /\ shape y1 = [2; 3; 5; 5]%nat).
  { destruct (at_pixels_value field ins ins (norm_forward (asize field) (same_type Bool.eqb) m1 lb [0; 0; 0]) (ins, x) 2 [5; 5]%nat) as (y1 & Ey & Sy & _); auto.
    - apply (norm_total field Bool.eqb eqb_true_iff all_kinds 4 c4 (or_introl eq_refl) eq_refl ins m1 lb [0; 0; 0]); auto. apply all_planar. do 2 eexists; exact E1.
    - exists y1. split; [exact Ey|exact Sy]. }
  destruct R1 as (y1 & Ey1 & Sy1).
  assert (R2 : exists y2, run (LConv c w b) (ins, y1) = Ret (outs, y2) /\ shape y2 = [2; 2; 5; 5]%nat).
  { assert (F1 : Forall (fun a => planar_repr (ps_group c4) (field a) /\ sharp (r_size (field a)) (r_inv (field a))) ins) by (apply Forall_forall; intros a _; destruct (fields_ok a) as (? & ? & ?); auto).
    assert (F2 : Forall (fun a => planar_repr (ps_group c4) (field a) /\ sharp (r_size (field a)) (r_cob (field a))) outs) by (apply Forall_forall; intros a _; destruct (fields_ok a) as (? & ? & ?); auto).
    destruct (proj2 (r2conv_runs field label Bool.eqb (fun l => l) (fun l => l) eqb_true_iff (fun l => Permutation_refl l) (fun l => Permutation_refl l)
      4 c4 linv 1 [0; 1] [1; 1] (or_introl eq_refl) eq_refl Hinv prof_ok ins outs F1 F2 (names_ok _) (names_ok _) 3 1 PadCircular 1 1 1 true None c w b y1 2%nat [5%nat; 5%nat] Ec Lw Sy1 eq_refl)) as ([t2 y2] & Ey2).
    { repeat split; try lia. repeat constructor; cbn; lia. }
    destruct (rc_sizes field label Bool.eqb c w b (ins, y1) (t2, y2) 2 [5; 5]%nat Sy1 eq_refl Ey2) as (T2 & S2). cbn [fst snd] in T2, S2.
    pose proof Ec as Ec'. unfold mk_r2conv in Ec'. rewrite c4_sub in Ec'. cbn [bind] in Ec'.
    destruct (mk_rdconv_inv _ _ _ _ _ _ _ eqb_true_iff _ _ _ _ _ _ _ _ _ _ _ _ _ Ec') as (first & m & bl & _ & _ & _ & _ & _ & Eq).
    rewrite Eq in T2, S2. cbn [rc_out rc_k rc_stride rc_dilation rc_padding] in T2, S2. subst t2. exists y2. split; [exact Ey2|exact S2]. }
  destruct R2 as (y2 & Ey2 & Sy2).
  assert (R3 : exists y3, run (LPoint m2) (outs, y2) = Ret (outs, y3) /\ shape y3 = [2; 2; 5; 5]%nat).
  { destruct (at_pixels_value field outs outs (pointwise_forward (asize field) (same_type Bool.eqb) m2) (outs, y2) 2 [5; 5]%nat) as (y3 & Ey & Sy & _); auto.
    - apply (point_total field Bool.eqb eqb_true_iff all_kinds outs m2). eexists; exact E2.
    - exists y3. split; [exact Ey|exact Sy]. }
  destruct R3 as (y3 & Ey3 & Sy3).
  assert (R4 : exists y4, run (LMax outs (max_init 3 (Some 2%nat) 0 1 false)) (outs, y3) = Ret (outs, y4) /\ shape y4 = [2; 2; 2; 2]%nat).
  { cbn [layer_run]. unfold of_type. cbn [fst snd]. rewrite Tr. cbn [assert_ bind]. unfold max_forward, max_pool. rewrite Sy3.
    cbn -[entry rmax]. eexists. split; reflexivity. }
  destruct R4 as (y4 & Ey4 & Sy4).
  assert (R5 : exists y5, run (LAvg outs 2 None 0 false) (outs, y4) = Ret (outs, y5) /\ shape y5 = [2; 2; 1; 1]%nat).
  { cbn [layer_run]. unfold of_type. cbn [fst snd]. rewrite Tr. cbn [assert_ bind]. unfold avg_forward, avg_pool. rewrite Sy4.
    cbn -[entry rmax]. eexists. split; reflexivity. }
  destruct R5 as (y5 & Ey5 & Sy5).
  assert (R6 : exists y6, run (LGroupPool m3 false [0; 0]) (outs, y5) = Ret (outs, y6) /\ shape y6 = [2; 2; 1; 1]%nat).
  { destruct (at_pixels_value field outs outs (invariants false (group_pooling (asize field) (same_type Bool.eqb) m3 [0; 0])) (outs, y5) 2 [1; 1]%nat) as (y6 & Ey & Sy & _); auto.
    - apply (gpool_total field Bool.eqb eqb_true_iff all_kinds 4 c4 (or_introl eq_refl) eq_refl outs m3 false [0; 0]); auto. apply all_planar. apply field_scalar.
    - exists y6. split; [exact Ey|exact Sy]. }
  destruct R6 as (y6 & Ey6 & Sy6).
  assert (Ci : rc_in c = ins /\ rc_out c = outs).
  { pose proof Ec as Ec'. unfold mk_r2conv in Ec'. rewrite c4_sub in Ec'. cbn [bind] in Ec'.
    destruct (mk_rdconv_inv _ _ _ _ _ _ _ eqb_true_iff _ _ _ _ _ _ _ _ _ _ _ _ _ Ec') as (first & m & bl & _ & _ & _ & _ & _ & Eq). rewrite Eq. split; reflexivity. }
  destruct Ci as (Ci & Co). split; [|split].
  - apply Ret_inj in E1, E2, E3. subst m1 m2 m3. unfold from_args, add_all, net. cbn [length seq map List.combine fold_left bind fst snd add_module empty_seq s_mods s_in s_out].
    cbn. unfold add_module. cbn. rewrite Ci, Co. reflexivity.
  - unfold net. cbn [throughout]. 
    split. { cbn [SpecCnn.ready fst snd]. split; [do 2 eexists; exact E1|]. split; [exact Ll|]. split; [reflexivity|]. apply Forall_forall. intros a _. apply field_orthogonal. }
    intros u1 Eu. rewrite Ey1 in Eu. apply Ret_inj in Eu. subst u1.
    split. { cbn [SpecCnn.ready fst snd]. rewrite Sy1. cbn [skipn]. exists 1%nat, [0; 1], [1; 1], outs, 3%nat, 1%nat, PadCircular, 1%nat, 1%nat, 1%nat, true, None. split; [exact Ec|]. split; [apply prof_ok|].
      split; [exact Lw|]. split; [repeat constructor|]. split; [apply names_ok|]. split; [apply names_ok|]. split; apply Forall_forall; intros a _; destruct (fields_ok a) as (? & ? & ?); auto. }
    intros u2 Eu. rewrite Ey2 in Eu. apply Ret_inj in Eu. subst u2.
    split. { split; [eexists; exact E2|exact outs_permute]. }
    intros u3 Eu. rewrite Ey3 in Eu. apply Ret_inj in Eu. subst u3.
    split. { cbn [SpecCnn.ready fst snd]. rewrite Sy3. split; [reflexivity|]. split; [|exact outs_permute]. cbn. repeat constructor; exists 1%nat; reflexivity. }
    intros u4 Eu. rewrite Ey4 in Eu. apply Ret_inj in Eu. subst u4.
    split. { cbn [SpecCnn.ready fst snd]. rewrite Sy4. split; [reflexivity|]. cbn. repeat constructor; exists 0%nat; reflexivity. }
    intros u5 Eu. rewrite Ey5 in Eu. apply Ret_inj in Eu. subst u5.
    split. { cbn [SpecCnn.ready fst snd]. split; [exact E3|]. split; [reflexivity|]. split; [exact outs_permute|]. split; [apply fields_ok|exact field_scalar]. }
    auto.
  - exists y6. split; [|exact Sy6]. unfold forward. cbn [wrap s_in s_out opt_eqb fst]. rewrite Tr. cbn [assert_ bind].
    change (map snd (s_mods (wrap (net c m1 m2 m3 w b lb)))) with (net c m1 m2 m3 w b lb). unfold net. cbn [fold_left]. cbn [bind]. rewrite Ey1. cbn [bind]. rewrite Ey2. cbn [bind]. rewrite Ey3. cbn [bind].
    rewrite Ey4. cbn [bind]. rewrite Ey5. cbn [bind]. rewrite Ey6. cbn [bind]. cbn [wrap s_out opt_eqb fst]. rewrite Tr. reflexivity.
Qed.
End Net.
