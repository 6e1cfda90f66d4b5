(** Types to restrict and to disentangle. *)
From Coq Require Import String Ascii.
From Coq Require Import Reals ZArith Lia Lra Bool List Arith.
From Verif Require Import LibRes LibMat FieldModel SpecFNorm FinGroupModel SpecFinGroup PlanarModel SpecPlanar IrrepModel SpecIrrep RepModel SpecRepr RepThms SpecDis DisModel DisThms DisEx IndThms
  SpecGrid GridModel ImageModel ImageEx RdConvModel RdConvEx GSpaceModel SpecGSpace GSpaceThms FieldMapModel FieldMapProofs SpecFieldMap FieldMapThms.
Import ListNotations.
Open Scope R_scope.

(** interpolation that returns the image *)
Definition unmoved (x : array R) (T : mat) (n : nat) : res (array R) := Ret x.
Lemma unmoved_reads : reads_entries unmoved.
Proof. intros x x' T T' n H _. exact H. Qed.

Lemma quarters_space : forall linv, correct_inverse linv -> exists s, mk_gspace2 linv (IO2 None 4) = Ret s /\ gs_group s = Fin (Cyc 4).
Proof.
  intros linv Hi. destruct (space_ok linv (IO2 None 4) Hi) as (s & Es & _ & Ep & _); [left; lia|exact I|]. exists s. split; [exact Es|].
  rewrite c4_sub in Ep. apply Ret_inj in Ep. unfold gs_group. rewrite <- Ep. reflexivity.
Qed.
Lemma halves : listed (Fin (Cyc 4)) (IdF (IdC 2)) /\ (forall b, joint_axis (IO2 None 4) (IdF (IdC 2)) b -> b <= 2 * PI /\ (b = 0 \/ / 10000000 <= b)) /\
  Forall (fun a => planar_repr (Fin (Cyc 4)) (field a) /\ forall parts, mapM (any_restrict_irrep (Fin (Cyc 4)) (IdF (IdC 2))) (r_irreps (field a)) = Ret parts ->
     sharp (r_size (field a)) (mmul (r_size (field a)) (r_cob (field a)) (bdiag (map fst parts)))) [false; true; false].
Proof.
  split; [cbn; split; [lia|exists 2%Z; lia]|]. split; [intros b []|].
  assert (H : forall a, planar_repr (Fin (Cyc 4)) (field a) /\ forall parts, mapM (any_restrict_irrep (Fin (Cyc 4)) (IdF (IdC 2))) (r_irreps (field a)) = Ret parts ->
     sharp (r_size (field a)) (mmul (r_size (field a)) (r_cob (field a)) (bdiag (map fst parts)))).
  { intros a. split; [exact (proj1 (fields_ok a))|]. intros parts E. left. destruct a; vm_compute in E; injection E as <-; intros [|[|i]] [|[|j]] Hi Hj; cbn in Hi, Hj; try lia; cbv; ring. }
  apply Forall_forall. intros a _. apply H.
Qed.
Lemma label_apart : named_apart label [false; true; false].
Proof. intros [|] [|] _ _ E; try reflexivity; vm_compute in E; discriminate. Qed.
Lemma listed_both : listing [false; true; false] [true; false].
Proof. split; [repeat constructor; cbn; intuition discriminate|]. intros [|]; cbn; tauto. Qed.

(** the halves of the quarter turns *)
Lemma halves_restricted : forall linv, correct_inverse linv -> exists s s' outs, mk_gspace2 linv (IO2 None 4) = Ret s /\
  type_restrict field label linv s [true; false] [false; true; false] (IdF (IdC 2)) = Ret (s', outs) /\ gs_group s' = Fin (Cyc 2) /\ map r_size outs = [1; 2; 1]%nat.
Proof.
  intros linv Hi. destruct (quarters_space linv Hi) as (s & Es & G). destruct halves as (L & J & F). rewrite <- G in L, F.
  destruct (restriction_ok field label (fun _ _ => true) [false; true; false] [true; false] listed_both label_apart ltac:(discriminate) eq_refl linv (IO2 None 4) s (IdF (IdC 2)) Hi ltac:(left; lia) I Es L J F)
    as (sg & s' & outs & E1 & E2 & E3 & E4 & _).
  exists s, s', outs. split; [exact Es|]. split; [exact E2|]. split; [|exact E4]. rewrite E3. rewrite G in E1. vm_compute in E1. apply Ret_inj in E1. subst sg. reflexivity.
Qed.

(** two axes swapped *)
Definition pair_name (u : unit) : string := "swapped"%string.
Definition quotient_name (u : unit) : string := "quotient[(0.0, 4)]_1"%string.
Lemma swapped_ok : Forall (fun _ : unit => proper toy_irrG (fun _ => True) toy_op false (toy_repr swap2 swap2) /\ clear_cut 2 swap2) [tt; tt] /\ listing [tt; tt] [tt] /\ (forall name : unit -> string, named_apart name [tt; tt]) /\
  ~ dotted (pair_name tt) /\ dotted (quotient_name tt).
Proof.
  split; [apply Forall_forall; intros _ _; exact (conj (toy_proper _ _ (proj1 swap2_ok)) (proj2 swap2_ok))|]. split; [split; [repeat constructor; intros []|intros []; cbn; tauto]|]. split; [intros name [] [] _ _ _; reflexivity|]. split.
  - intros H. apply has_dot_ok in H. discriminate H.
  - apply has_dot_ok. reflexivity.
Qed.

Lemma disentangle_refuted : forall linv components, correct_inverse linv -> correct_components components ->
  mk_dis (fun _ : unit => toy_repr swap2 swap2) quotient_name (disentangle toy_irrG linv components) [tt] [tt; tt] = Raise.
Proof.
  intros linv components Hi Hc. destruct swapped_ok as (F & L & N & _ & D).
  apply (dis_refused toy_irrG (fun _ => True) toy_op false linv components Hi Hc (fun _ : unit => toy_repr swap2 swap2) quotient_name [tt; tt] [tt] L F). exists tt. split; [left; reflexivity|exact D].
Qed.
