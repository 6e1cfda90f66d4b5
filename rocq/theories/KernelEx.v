(** A kernel basis on the plane that is not empty. *)
From Coq Require Import Reals List ZArith Arith Bool Lia Lra.
From Verif Require Import LibRes LibMat LibMatS LibTrig FinGroupModel ParamModel ParamProofs PlanarModel SpecPlanar
  IrrepModel SpecRep SpecIrrep IrrepProofs RepModel SpecRepr RepProofs RepThms
  KernelModel SpecKernel KernelProofs PolarModel SpecPolar PolarProofs PolarThms KernelPlanar.
Import ListNotations.
Open Scope R_scope.

Lemma so2_restr : forall linv (j : nat) r, correct_inverse linv -> p_irr O2 (ar_id circular j) = Ret r ->
  p_restrict_irrep O2 (ar_id circular j) (IO2 None (-1)) = Ret ((gi_size r, mid), [[Z.of_nat j]]) ->
  gi_id r = ar_id circular j -> (0 < gi_size r)%nat -> 
  exists d, o2_restrict linv (IO2 None (-1)) SO2 (ar_id circular j) = Ret d /\ r_irreps d = [[Z.of_nat j]] /\ r_size d = gi_size r.
Proof.
  intros linv j r Hinv Er Ex Ei Pos. unfold o2_restrict. rewrite Er; cbn [bind]. unfold restrict_representation.
  cbn [repr_of_irrep r_irreps r_size r_cob]. rewrite Ei. cbn [mapM]. rewrite Ex; cbn [bind]. rewrite Er; cbn [bind fst].
  rewrite Nat.eqb_refl; cbn [assert_ bind map fst bsize flat_map snd app]. rewrite Nat.add_0_r, Nat.eqb_refl; cbn [assert_ bind].
  set (n := gi_size r) in *. unfold mk_repr.
  match goal with |- context [linv n ?q] => set (Q := q) end.
  assert (meq n n Q mid) as EQ.
  { unfold Q. rewrite mid_l. intros a b Ha Hb. cbn [bdiag]. rewrite (proj2 (Nat.ltb_lt _ _) Ha), (proj2 (Nat.ltb_lt _ _) Hb). reflexivity. }
  rewrite (proj2 (Nat.ltb_lt _ _) Pos); cbn [assert_ bind].
  destruct (Hinv n Q) as [H1 H2]. destruct H2 as (B & EB).
  { exists mid. split; rewrite EQ, mid_l; reflexivity. }
  rewrite EB; cbn [bind]. destruct (H1 B EB) as [I1 I2].
  rewrite (allclose_meq n n _ _ I1), (allclose_meq n n _ _ I2); cbn [assert_ bind length Nat.ltb Nat.leb].
  rewrite (allclose_meq n n _ _ EQ). unfold direct_sum_factory, irreps_size. cbn [mapM].
  destruct (p_irr_sound SO2 [Z.of_nat j] I) as (q & Eq & _); [cbn; lia|]. rewrite Eq; cbn [bind].
  eexists; split; [reflexivity|]. split; reflexivity.
Qed.

Definition so2_trivial : res (repr pval) := s <- p_irr SO2 [0%Z] ;; Ret (repr_of_irrep s).
Definition so2_standard : res (repr pval) := s <- p_irr SO2 [1%Z] ;; Ret (repr_of_irrep s).

(** From scalar to vector fields: two kernels for each radial profile. *)
Lemma plane_nonempty : forall linv rin rout, correct_inverse linv -> so2_trivial = Ret rin -> so2_standard = Ret rout ->
  exists sg s k, kernels_on_plane linv (IO2 None (-1)) 1 [1; 2] [1; 1] None 0 rin rout = Ret (Some (sg, s, k)) /\
    ps_group sg = SO2 /\ sk_dim k = 4%nat.
Proof.
  intros linv rin rout Hinv Ei Eo. unfold so2_trivial in Ei; unfold so2_standard in Eo.
  cbn in Ei, Eo. apply Ret_inj in Ei; apply Ret_inj in Eo; subst rin rout.
  destruct (so2_restr linv 0 _ Hinv eq_refl eq_refl eq_refl ltac:(cbn; lia)) as (d0 & E0 & I0 & S0).
  destruct (so2_restr linv 1 _ Hinv eq_refl eq_refl eq_refl ltac:(cbn; lia)) as (d1 & E1 & I1 & S1).
  cbn [circular ar_id Nat.ltb Nat.leb Z.of_nat Pos.of_succ_nat gi_size girrep_of ir_size] in E0, E1, S0, S1, I0, I1.
  unfold kernels_on_plane. cbn [p_subgroup Z.eqb orb assert_ bind Z.ltb Z.compare ps_group].
  assert (mk_profile [1; 2] [1; 1] = Ret {| gp_radii := [1; 2]; gp_sigma := [1; 1] |}) as Ep.
  { unfold mk_profile. cbn [length Nat.eqb assert_ bind forallb].
    rewrite !(proj2 (Rleb_true 0 1)), (proj2 (Rleb_true 0 2)) by lra. cbn [andb assert_ bind].
    destruct (Rleb 1 0) eqn:H; [apply Rleb_true in H; lra|]. reflexivity. }
  rewrite Ep; cbn [bind].
  cbn -[mk_skb circ_filters mk_rwe]. set (s := {| sh_L := 1 |}).
  assert (exists b, mk_rwe (p_irr O2) (p_irr SO2) (o2_restrict linv (IO2 None (-1)) SO2) (p_tensor SO2) (p_cg SO2)
     (circ_filters s 0) [0%Z] [1%Z] = Ret (Some b) /\ b_dim b = 4%nat) as (b & Eb & Db).
  { unfold mk_rwe. cbn -[o2_restrict rw_part rw_dim]. rewrite E0, E1. cbn -[o2_restrict rw_part rw_dim].
    unfold rw_part. rewrite I0, I1, S0, S1. cbn -[o2_restrict rw_coeff].
    eexists; split; [reflexivity|reflexivity]. }
  unfold mk_skb. cbn [repr_of_irrep girrep_of r_irreps gi_id ir_id in_pairs out_pairs]. rewrite Eb. cbn [bind].
  cbn -[circ_filters allclose]. rewrite Db. cbn -[circ_filters allclose].
  do 3 eexists. split; [reflexivity|]. split; reflexivity.
Qed.
