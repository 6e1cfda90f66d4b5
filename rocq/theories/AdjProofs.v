(** Kernel bases with an adjoint. *)
From Coq Require Import Reals List ZArith Arith Bool Lia Lra FunctionalExtensionality.
From Verif Require Import LibRes LibMat LibMatS LibTrig FinGroupModel ParamModel ParamProofs PlanarModel SpecPlanar PlanarProofs IrrepModel SpecRep SpecIrrep RepModel SpecRepr RepProofs
  KernelModel SpecKernel PolarModel SpecPolar PolarThms KernelPlanar AdjModel.
Import ListNotations.
Open Scope R_scope.

Lemma transformed_move : forall A x, transformed A x = move A x.
Proof. intros A x. unfold transformed, move. f_equal; ring. Qed.
Lemma move_back : forall A x, meq 2 2 (mmul 2 A (mtr A)) mid -> move A (move (mtr A) x) = x.
Proof.
  intros A [a b] O. pose proof (O 0%nat 0%nat ltac:(lia) ltac:(lia)) as H1. pose proof (O 0%nat 1%nat ltac:(lia) ltac:(lia)) as H2. pose proof (O 1%nat 0%nat ltac:(lia) ltac:(lia)) as H3. pose proof (O 1%nat 1%nat ltac:(lia) ltac:(lia)) as H4.
  unfold mmul, mtr, mid in *. cbn in H1, H2, H3, H4. unfold move, mtr. cbn [fst snd]. f_equal.
  - transitivity ((0 + A 0%nat 0%nat * A 0%nat 0%nat + A 0%nat 1%nat * A 0%nat 1%nat) * a + (0 + A 0%nat 0%nat * A 1%nat 0%nat + A 0%nat 1%nat * A 1%nat 1%nat) * b); [ring|]. rewrite ?Rplus_0_l in *. rewrite H1, H2. ring.
  - transitivity ((0 + A 1%nat 0%nat * A 0%nat 0%nat + A 1%nat 1%nat * A 0%nat 1%nat) * a + (0 + A 1%nat 0%nat * A 1%nat 0%nat + A 1%nat 1%nat * A 1%nat 1%nat) * b); [ring|]. rewrite ?Rplus_0_l in *. rewrite H3, H4. ring.
Qed.
Lemma move_id : forall A x, meq 2 2 A mid -> move A x = x /\ move (mtr A) x = x.
Proof.
  intros A [a b] E. unfold move, mtr. cbn [fst snd]. rewrite (E 0%nat 0%nat), (E 0%nat 1%nat), (E 1%nat 0%nat), (E 1%nat 1%nat) by lia. unfold mid; cbn. split; f_equal; ring.
Qed.
Lemma orth_checked : forall A, orthogonal 2 A -> check_adjoint 2 A = Ret tt.
Proof. intros A [O1 O2]. unfold check_adjoint. rewrite (allclose_meq _ _ _ _ O1), (allclose_meq _ _ _ _ O2). reflexivity. Qed.

(** *** the axis *)
Lemma value_turned : forall s a x idx, circ_value s a x idx = circ_value s 0 (move (rot2 (- a)) x) idx.
Proof.
  intros s a x idx. rewrite !circ_value_eq. destruct (polar_form x) as (t & Ex). pose proof (norm2_nonneg x) as N. set (r := norm2 x) in *.
  assert (move (rot2 (- a)) x = (r * cos (t - a), r * sin (t - a))) as Em.
  { rewrite Ex. unfold move, rot2, mat2. cbn. unfold Rminus. rewrite cos_plus, sin_plus. f_equal; ring. }
  rewrite Em, (norm2_polar r (t - a) N). f_equal. apply functional_extensionality. intros i. rewrite Ex. rewrite !yv_polar by exact N. rewrite Rminus_0_r. reflexivity.
Qed.
Lemma harmonics_turned : forall s a x j, harmonics (p_irr O2) (circ_filters s a) x j = harmonics (p_irr O2) (circ_filters s 0) (move (rot2 (- a)) x) j.
Proof.
  intros s a x j. unfold harmonics. cbn [circ_filters f_js f_sample].
  replace (circ_value s a x) with (circ_value s 0 (move (rot2 (- a)) x)) by (apply functional_extensionality; intros idx; symmetry; apply value_turned). reflexivity.
Qed.
Lemma sample_turned : forall s a (k : skbasis pval hattr) x idx, sk_sample (p_irr O2) (circ_filters s a) k x idx = sk_sample (p_irr O2) (circ_filters s 0) k (move (rot2 (- a)) x) idx.
Proof.
  intros s a k x idx. unfold sk_sample. destruct (locate _ _ idx) as [[j i]|]; [|reflexivity]. destruct (locate _ _ i) as [[q i']|]; [|reflexivity]. rewrite harmonics_turned. reflexivity.
Qed.
Lemma kernels_axis : forall linv sid L radii sigma flt a b rin rout, kernels_on_plane linv sid L radii sigma flt a rin rout = kernels_on_plane linv sid L radii sigma flt b rin rout.
Proof. intros. reflexivity. Qed.
