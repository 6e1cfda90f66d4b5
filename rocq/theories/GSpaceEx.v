(** Spaces on the plane and subgroups of them. *)
From Coq Require Import Reals ZArith Bool List Lia Lra.
From Verif Require Import LibRes LibMat FinGroupModel SpecFinGroup PlanarModel SpecPlanar PlanarProofs SpecRepr RepModel GridModel ImageModel RdConvModel GSpaceModel SpecGSpace GSpaceProofs GSpaceThms.
Import ListNotations.
Open Scope R_scope.

Lemma pi_bounds : 3 < PI <= 4.
Proof. split; [pose proof PI2_3_2; lra|apply PI_4]. Qed.

(** eight rotations and reflections about the default axis *)
Lemma eight_doc : pdocumented O2 (IO2 (Some (2 * (PI / 2))) 8) /\ clear_axis (IO2 (Some (2 * (PI / 2))) 8).
Proof. pose proof pi_bounds. split; [split; [left; lia|lra]|right; lra]. Qed.

Lemma eight_space : forall linv, correct_inverse linv -> exists s, flip_rot2d_on_r2 linv 8 (PI / 2) = Ret s /\ mk_gspace2 linv (IO2 (Some (2 * (PI / 2))) 8) = Ret s /\ gs_group s = Fin (Dih 8).
Proof.
  intros linv Hi. destruct (space_ok linv _ Hi (proj1 eight_doc) (proj2 eight_doc)) as (s & Es & _ & Ep & _). exists s. split; [exact Es|]. split; [exact Es|].
  destruct (p_subgroup_cases _ _ (proj1 eight_doc)) as (sg & E & C). rewrite Ep in E. apply Ret_inj in E. unfold gs_group. rewrite E. inversion C; subst; try lia. reflexivity.
Qed.

(** its subgroup about the second mirror is found *)
Lemma eight_second : listed (Fin (Dih 8)) (IdF (IdD (Some 2%Z) 2)) /\
  forall b, joint_axis (IO2 (Some (2 * (PI / 2))) 8) (IdF (IdD (Some 2%Z) 2)) b -> b <= 2 * PI /\ (b = 0 \/ / 10000000 <= b).
Proof.
  pose proof pi_bounds. split; [cbn; split; [lia|]; split; [exists 4%Z; lia|cbn; lia]|]. intros b (_ & ->). split; [|right]; lra.
Qed.

(** that about the sixth is not *)
Lemma eight_sixth : listed (Fin (Dih 8)) (IdF (IdD (Some 5%Z) 1)) /\
  joint_axis (IO2 (Some (2 * (PI / 2))) 8) (IdF (IdD (Some 5%Z) 1)) (2 * (PI / 2) + 2 * PI / 8 * 5) /\ 2 * PI < 2 * (PI / 2) + 2 * PI / 8 * 5.
Proof.
  pose proof pi_bounds. split; [cbn; split; [lia|]; split; [exists 8%Z; lia|cbn; lia]|]. split; [split; [lia|reflexivity]|lra].
Qed.

Theorem restrict_refuted : forall linv, correct_inverse linv -> exists s, flip_rot2d_on_r2 linv 8 (PI / 2) = Ret s /\
  listed (gs_group s) (IdF (IdD (Some 5%Z) 1)) /\ gspace2_restrict linv s (IdF (IdD (Some 5%Z) 1)) = Raise.
Proof.
  intros linv Hi. destruct (eight_space linv Hi) as (s & E & Em & G). exists s. split; [exact E|]. rewrite G. destruct eight_sixth as (L & J & B). split; [exact L|].
  apply (restrict_refused linv _ s _ (2 * (PI / 2) + 2 * PI / 8 * 5) (proj1 eight_doc) Em); [rewrite G; exact L|exact J|exact B].
Qed.

(** also O(2) itself about the default axis *)
Lemma full_doc : pdocumented O2 (IO2 (Some (2 * (PI / 2))) (-1)) /\ clear_axis (IO2 (Some (2 * (PI / 2))) (-1)).
Proof. pose proof pi_bounds. split; [split; [right; lia|lra]|right; lra]. Qed.
Theorem full_refuted : forall linv, correct_inverse linv -> exists s, flip_rot2d_on_r2 linv (-1) (PI / 2) = Ret s /\ gs_group s = O2 /\
  forall t n, PI < t < 2 * PI -> (0 < n)%Z -> listed O2 (IdP (IO2 (Some t) n)) /\ gspace2_restrict linv s (IdP (IO2 (Some t) n)) = Raise.
Proof.
  intros linv Hi. destruct (space_ok linv _ Hi (proj1 full_doc) (proj2 full_doc)) as (s & Es & _ & Ep & _). exists s. split; [exact Es|].
  assert (gs_group s = O2) as G.
  { destruct (p_subgroup_cases _ _ (proj1 full_doc)) as (sg & E & C). rewrite Ep in E. apply Ret_inj in E. unfold gs_group. rewrite E. inversion C; subst; try lia. reflexivity. }
  split; [exact G|]. intros t n Ht Hn. pose proof pi_bounds. assert (listed O2 (IdP (IO2 (Some t) n))) as L by (cbn; split; [left; exact Hn|lra]). split; [exact L|].
  apply (restrict_refused linv _ s _ (2 * (PI / 2) + t) (proj1 full_doc) Es); [rewrite G; exact L| |lra]. split; [lia|]. left. split; [lra|reflexivity].
Qed.
