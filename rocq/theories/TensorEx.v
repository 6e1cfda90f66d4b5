(** Tensor products and tensor product modules of C_4. *)
From Coq Require Import String.
From Coq Require Import Reals ZArith Bool List Arith Lia Lra Permutation.
From Verif Require Import LibRes LibMat LibMatS FieldModel FinGroupModel ParamModel PlanarModel SpecPlanar IrrepModel SpecIrrep RepModel SpecRepr RepProofs RepThms KernelModel SpecKernel PolarModel KernelPlanar
  BlocksModel LayerModel GridModel SpecGrid ImageModel RdConvModel RdConvThms RdConvEx SeqModel ExportModel ExportEx LinearModel StateThms StateEx TensorModel SpecTensor TensorThms TensorCor TensorModModel SpecTensorMod TensorModThms TensorModCor TensorModComp.
Import ListNotations.
Open Scope R_scope.

Notation c4_product linv := (tensor_product (p_irr (Fin (Cyc 4))) linv (p_tensor (Fin (Cyc 4))) (p_cg (Fin (Cyc 4)))).
Notation c4_generator := (fun rep' : option bool -> repr pval => point_generator rep' (p_irr (Fin (Cyc 4))) (p_tensor (Fin (Cyc 4))) (p_cg (Fin (Cyc 4))) (p_trivial_id (Fin (Cyc 4)))).
Notation c4_module linv := (mk_tensor_module field label "hidden" Bool.eqb (fun l => l) (fun l => l) (c4_product linv) c4_generator).

Lemma field_plain : forall b, meq (r_size (field b)) (r_size (field b)) (r_cob (field b)) mid.
Proof. intros [|]; reflexivity. Qed.
Lemma module_fields : forall linv, correct_inverse linv -> forall l,
  Forall (fun a => planar_repr (Fin (Cyc 4)) (field a) /\ orthogonal (asize field a) (r_cob (field a)) /\ forall hid, c4_product linv (field a) (field a) = Ret hid -> sharp (r_size hid) (r_cob hid)) l /\
  Forall (fun a => planar_repr (Fin (Cyc 4)) (field a) /\ sharp (asize field a) (r_cob (field a)) /\ orthogonal (asize field a) (r_cob (field a))) l.
Proof.
  intros linv Hinv l. split; apply Forall_forall; intros a _; destruct (fields_ok a) as (P & _ & S).
  - split; [exact P|]. exact (plain_hidden (Fin (Cyc 4)) linv eq_refl I Hinv (field a) P (field_plain a)).
  - split; [exact P|]. split; [exact S|]. exact (proj1 (plain_hidden (Fin (Cyc 4)) linv eq_refl I Hinv (field a) P (field_plain a))).
Qed.

(** the tensor square of the vectors *)
Lemma vector_square : forall linv, correct_inverse linv -> exists r, c4_product linv (field true) (field true) = Ret r /\ r_size r = 4%nat /\ planar_repr (Fin (Cyc 4)) r /\
  forall g A, pmember (Fin (Cyc 4)) g -> r_fun (field true) g = Ret (2%nat, A) -> exists C, r_fun r g = Ret (4%nat, C) /\ C 0%nat 3%nat = A 0%nat 1%nat * A 0%nat 1%nat.
Proof.
  intros linv Hinv. destruct (fields_ok true) as (P & _ & _). destruct (rot_tensor_product (Fin (Cyc 4)) eq_refl I linv Hinv (field true) (field true) P P) as (r & Er & Sr & _ & Sh & V).
  destruct (V (Sh (field_plain true) (field_plain true))) as [Pr W]. change (r_size (field true)) with 2%nat in *. exists r. split; [exact Er|]. split; [exact Sr|]. split; [exact Pr|].
  intros g A Hg EA. destruct (W g A A Hg EA EA) as (C & EC & T). exists C. rewrite Sr in EC. split; [exact EC|]. exact (T 0 1 0 1 ltac:(lia) ltac:(lia) ltac:(lia) ltac:(lia))%nat.
Qed.
Lemma vectors_sound : sound_pair (p_irr (Fin (Cyc 4))) (pmember (Fin (Cyc 4))) (irrep_ok (Fin (Cyc 4))) (p_tensor (Fin (Cyc 4))) (p_cg (Fin (Cyc 4))) [1%Z] [1%Z].
Proof. apply (rot_sound (Fin (Cyc 4)) eq_refl I); cbn; lia. Qed.

(** the squared lengths of two vectors are a projection to two scalars *)
Definition lengths : mat := fun _ q => if Nat.eqb q 0 then 1 else if Nat.eqb q 3 then 1 else 0.
Lemma lengths_commute : commuting_projection field (pmember (Fin (Cyc 4))) true [false; false] lengths.
Proof.
  intros g A P Hg EA EP r a b Hr Ha Hb. destruct g as [z|t|f t]; try contradiction. destruct z as [z|f z]; try contradiction. cbn in EA. apply Ret_inj in EA. injection EA as <-.
  unfold fiber_matrix in EP. cbn in EP. apply Ret_inj in EP. subst P.
  change (type_size (asize field) [false; false]) with 2%nat in *. change (asize field true) with 2%nat in *.
  cbn [sumn]. destruct r as [|[|r]]; [| |lia]; (destruct a as [|[|a]]; [| |lia]); (destruct b as [|[|b]]; [| |lia]); unfold lengths; cbn.
  all: set (t := 1 * (IZR z * (2 * PI) / 4) + 0); pose proof (sin2_cos2 t) as Q; unfold Rsqr in Q; lra.
Qed.

(** A module that answers with the squared lengths of two vectors, after training and evaluation. *)
Lemma lengths_reached : forall linv, correct_inverse linv -> exists c w m, c4_module linv [true; true] [false; false] = Ret c /\ length w = bb_dim (tp_expansion c) /\
  obj_run (tensor_expand field label "hidden" c) true (history (w, []) (w, [])) (new_layer (w, []) (ones, None)) = Ret m /\ ly_training m = false /\
  forall x B sp, shape x = B :: 4%nat :: sp -> exists y, tensor_call field label "hidden" Bool.eqb c m ([true; true], x) = Ret ([false; false], y) /\ shape y = B :: 2%nat :: sp /\
    forall b f p, (f < 2)%nat -> entry y (b :: f :: p) = entry x (b :: (f * 2)%nat :: p) ^ 2 + entry x (b :: (f * 2 + 1)%nat :: p) ^ 2.
Proof.
  intros linv Hinv. destruct (module_fields linv Hinv [true; true]) as [F1 _]. destruct (module_fields linv Hinv [false; false]) as [_ F2].
  destruct (rotations_tensor_complete field label "hidden" Bool.eqb (fun l => l) (fun l => l) eqb_true_iff (fun l => Permutation_refl l) (fun l => Permutation_refl l) (Fin (Cyc 4)) linv eq_refl I Hinv [true; true] [false; false] F1 F2
    true false 2%nat ltac:(lia) eq_refl eq_refl) as (_ & All & _ & Iff).
  destruct (proj2 Iff) as (c & Ec). { exists lengths, 0%nat, 0%nat. split; [exact lengths_commute|]. split; [cbn; lia|]. split; [cbn; lia|]. unfold lengths. cbn. lra. }
  assert (F2' : Forall (fun a => planar_repr (Fin (Cyc 4)) (field a) /\ sharp (asize field a) (r_cob (field a))) [false; false]) by (eapply Forall_impl; [|exact F2]; cbv beta; tauto).
  destruct (rotations_tensor_built field label "hidden" Bool.eqb (fun l => l) (fun l => l) eqb_true_iff (fun l => Permutation_refl l) (fun l => Permutation_refl l) (Fin (Cyc 4)) linv eq_refl I Hinv [true; true] [false; false] F1 F2'
    true false 2%nat ltac:(lia) eq_refl eq_refl) as (hid & bl & _ & _ & _ & Exp).
  destruct (All c lengths Ec lengths_commute) as (w & Lw & V). destruct (Exp c (w, []) Ec Lw) as (M & EM). exists c, w.
  assert (exists m, obj_run (tensor_expand field label "hidden" c) true (history (w, []) (w, [])) (new_layer (w, []) (ones, None)) = Ret m /\ ly_training m = false /\ obj_used (tensor_expand field label "hidden" c) m = Ret M) as (m & Hr & Tr & U).
  { eexists. split; [|split].
    - cbn [history obj_run obj_step obj_train new_layer ly_training ly_params orb]. rewrite EM. cbn [bind]. cbn [obj_run obj_step obj_train set_params ly_training ly_params orb bind]. rewrite EM. cbn [bind ly_training obj_step obj_train ly_params orb]. rewrite EM. cbn [bind]. reflexivity.
    - reflexivity.
    - reflexivity. }
  exists m. split; [exact Ec|]. split; [exact Lw|]. split; [exact Hr|]. split; [exact Tr|]. intros x B sp Ex.
  destruct (rotations_tensor_value field label "hidden" Bool.eqb (fun l => l) (fun l => l) eqb_true_iff (fun l => Permutation_refl l) (fun l => Permutation_refl l) (Fin (Cyc 4)) linv eq_refl I Hinv [true; true] [false; false] F1 F2'
    c (w, []) (ones, None) (history (w, []) (w, [])) m M Ec Lw) with (x := x) (B := B) (sp := sp) as (y & Ey & Sy & _ & Vy); [|exact Hr|exact U|exact Ex|].
  { intros w' Hw. unfold history in Hw. cbn [In] in Hw. intuition; try discriminate. all: match goal with H : SetParams _ = SetParams _ |- _ => injection H as <- end; exact Lw. }
  exists y. split; [exact Ey|]. split; [exact Sy|]. intros b f p Hf.
  specialize (Vy true false f b 0%nat p (or_introl eq_refl) (or_introl eq_refl) Hf). change (asize field false) with 1%nat in Vy. change (asize field true) with 2%nat in Vy. specialize (Vy ltac:(lia)).
  replace (f * 1 + 0)%nat with f in Vy by lia. rewrite Vy. specialize (V [] M EM). change (type_size (asize field) [false; false]) with 2%nat in V. change (asize field true * asize field true)%nat with 4%nat in V.
  cbn [sumn]. rewrite !V by (try exact Hf; cbn; lia). unfold lengths. cbn [Nat.eqb Nat.mul Nat.add]. replace (f * 2 + 0)%nat with (f * 2)%nat by lia. ring.
Qed.

(** No product of vectors is a vector: the half turn changes the sign of vectors only. *)
Lemma no_vector_products : forall linv, correct_inverse linv -> forall n, c4_module linv (repeat true n) (repeat true n) = Raise.
Proof.
  intros linv Hinv [|n]; [reflexivity|]. set (C := S n). destruct (module_fields linv Hinv (repeat true C)) as [F1 F2].
  destruct (rotations_tensor_complete field label "hidden" Bool.eqb (fun l => l) (fun l => l) eqb_true_iff (fun l => Permutation_refl l) (fun l => Permutation_refl l) (Fin (Cyc 4)) linv eq_refl I Hinv (repeat true C) (repeat true C) F1 F2
    true true C ltac:(unfold C; lia) eq_refl eq_refl) as (_ & _ & _ & Iff).
  destruct (c4_module linv (repeat true C) (repeat true C)) as [|c] eqn:E; [reflexivity|]. exfalso.
  destruct (proj1 Iff (ex_intro _ c eq_refl)) as (W & r & q & HW & Hr & Hq & Nz). apply Nz.
  set (g := VF (VC 2)). assert (Hg : pmember (Fin (Cyc 4)) g) by (cbn; lia).
  assert (EA : exists A, r_fun (field true) g = Ret (2%nat, A) /\ forall a b, (a < 2)%nat -> (b < 2)%nat -> A a b = - mid a b).
  { eexists. split; [reflexivity|]. intros a b Ha Hb. replace (1 * (IZR 2 * (2 * PI) / 4) + 0) with PI by field.
    destruct a as [|[|a]]; [| |lia]; (destruct b as [|[|b]]; [| |lia]); cbn; replace (1 * (2 * (2 * PI) / 4) + 0) with PI by field; rewrite ?cos_PI, ?sin_PI; unfold mid; cbn; ring. }
  destruct EA as (A & EA & VA). set (outs := repeat true C) in *.
  assert (FV : Forall (fun a => exists B, r_fun (field a) g = Ret (asize field a, B)) outs) by (apply Forall_forall; intros a Ha; apply repeat_spec in Ha; subst a; exists A; exact EA).
  pose proof (fiber_matrix_ok field outs g FV) as EP.
  assert (St : type_size (asize field) outs = (C * 2)%nat) by (unfold outs; apply (size_repeat _ (asize field))).
  change (asize field true) with 2%nat in *. rewrite St in *.
  specialize (HW g A _ Hg EA EP). change (asize field true) with 2%nat in HW. rewrite St in HW.
  assert (Hd : (q / 2 < 2)%nat) by (apply Nat.div_lt_upper_bound; lia). assert (Hm : (q mod 2 < 2)%nat) by (apply Nat.mod_upper_bound; lia).
  specialize (HW r (q / 2)%nat (q mod 2)%nat Hr Hd Hm). replace (q / 2 * 2 + q mod 2)%nat with q in HW by (pose proof (Nat.div_mod q 2); lia).
  assert (L : sumn (C * 2) (fun j => RdConvProofs.dg (asize field) (fun a => value_at g (field a)) outs r j * W j q) = - W r q).
  { assert (exists u d, r = (u * 2 + d)%nat /\ (u < C)%nat /\ (d < 2)%nat) as (u & d & -> & Hu & Hd2)
      by (exists (r / 2)%nat, (r mod 2)%nat; split; [pose proof (Nat.div_mod r 2); lia|split; [apply Nat.div_lt_upper_bound; lia|apply Nat.mod_upper_bound; lia]]).
    rewrite (repeats_sum C 2 _ (value_at g (field true)) u d (fun j => W j q)); [|exact (dg_copies _ (asize field) (fun a => value_at g (field a)) true C ltac:(cbn; lia))|exact Hu|exact Hd2].
    unfold value_at. rewrite EA. cbn [sumn]. rewrite !VA by lia. unfold mid. destruct d as [|[|?]]; [| |lia]; cbn [Nat.eqb]; ring. }
  rewrite L in HW. cbn [sumn] in HW. rewrite !VA in HW by lia. unfold mid in HW.
  pose proof (Nat.div_mod q 2 ltac:(lia)) as D. destruct (q / 2)%nat as [|[|?]]; [| |lia]; (destruct (q mod 2)%nat as [|[|?]]; [| |lia]); cbn [Nat.eqb Nat.mul Nat.add] in HW, D; subst q; lra.
Qed.
