(** The five irreps of the rotations of a cube are orthogonal representations. *)
From Coq Require Import Reals ZArith Bool List Lia Lra Arith.
From Verif Require Import LibRes LibMat LibMatS SpecGroup IrrepModel SpecRep PlanarModel SpaceModel SpecSpace SpaceProofs SphereProofs OctaModel SpecOcta
  OctaProofs OctaThms SpecOctaIrrep.
Import ListNotations.
Open Scope R_scope.

Lemma oct_mul_mat : forall p q i j, (i < 3)%nat -> (j < 3)%nat ->
  as_matrix (qmul p q) i j = as_matrix p i 0%nat * as_matrix q 0%nat j + as_matrix p i 1%nat * as_matrix q 1%nat j + as_matrix p i 2%nat * as_matrix q 2%nat j.
Proof. intros p q i j Hi Hj; rewrite (mat_mul p q i j Hi Hj); unfold mmul; cbn [sumn]; ring. Qed.

Lemma squares_mul : forall p q i j, octahedral p -> (i < 3)%nat -> (j < 3)%nat ->
  squares (as_matrix (qmul p q)) i j =
  squares (as_matrix p) i 0%nat * squares (as_matrix q) 0%nat j + squares (as_matrix p) i 1%nat * squares (as_matrix q) 1%nat j
  + squares (as_matrix p) i 2%nat * squares (as_matrix q) 2%nat j.
Proof.
  intros p q i j Hp Hi Hj; unfold squares; rewrite oct_mul_mat by assumption.
  destruct (octahedral_row p i Hp Hi) as (k & s & Hk & Hs & R).
  rewrite (R 0%nat), (R 1%nat), (R 2%nat) by lia.
  destruct k as [|[|[|k]]]; [| | |exfalso; lia]; cbn [Nat.eqb]; ring.
Qed.

Lemma squares_row : forall p i, octahedral p -> (i < 3)%nat ->
  squares (as_matrix p) i 0%nat + squares (as_matrix p) i 1%nat + squares (as_matrix p) i 2%nat = 1.
Proof.
  intros p i Hp Hi; unfold squares; destruct (octahedral_row p i Hp Hi) as (k & s & Hk & Hs & R).
  rewrite (R 0%nat), (R 1%nat), (R 2%nat) by lia.
  destruct k as [|[|[|k]]]; [| | |exfalso; lia]; cbn [Nat.eqb]; destruct Hs as [-> | ->]; lra.
Qed.

Lemma sign_mul : forall p q, octahedral p -> axes_sign (as_matrix (qmul p q)) = axes_sign (as_matrix p) * axes_sign (as_matrix q).
Proof.
  intros p q Hp; unfold axes_sign, det3, dot, cross; cbn [sumn].
  rewrite !squares_mul by (assumption || lia).
  generalize (squares (as_matrix p)) (squares (as_matrix q)); intros P Q; ring.
Qed.

Lemma sign_conj : forall q, axes_sign (as_matrix (qconj q)) = axes_sign (as_matrix q).
Proof.
  intros q; unfold axes_sign, det3, dot, cross, squares; cbn [sumn].
  rewrite !(mat_conj q) by lia; unfold mtr; ring.
Qed.

Lemma sign_id : axes_sign (as_matrix so3_id) = 1.
Proof. unfold axes_sign, det3, dot, cross, squares, so3_id; cbn; ring. Qed.

Lemma octa_conj_mul : forall q, octahedral q -> qmul q (qconj q) = so3_id.
Proof.
  intros q Hq; pose proof (grp_inv_r _ _ _ _ octa_group q (qconj q) Hq (octa_inv_ok q Hq)) as E.
  rewrite octa_mul_ok in E by (assumption || apply octahedral_conj; assumption); apply Ret_inj in E; exact E.
Qed.

Lemma sign_sq : forall q, octahedral q -> axes_sign (as_matrix q) * axes_sign (as_matrix q) = 1.
Proof.
  intros q Hq; rewrite <- sign_id, <- (octa_conj_mul q Hq), sign_mul, sign_conj by exact Hq; reflexivity.
Qed.

(** the plane *)
Lemma inv_sqrt3 : / sqrt 3 * / sqrt 3 = 1 / 3.
Proof.
  rewrite <- Rinv_mult; rewrite sqrt_sqrt by lra; lra.
Qed.

Lemma sqrt3_inv : sqrt 3 = 3 * / sqrt 3.
Proof.
  assert (0 < sqrt 3) by (apply sqrt_lt_R0; lra).
  apply Rmult_eq_reg_r with (sqrt 3); [|lra]; rewrite sqrt_sqrt by lra; field; lra.
Qed.

Lemma plane_gram : forall j k, (j < 3)%nat -> (k < 3)%nat ->
  plane 0 j * plane 0 k + plane 1 j * plane 1 k = (if Nat.eqb j k then 1 else 0) - 1 / 3.
Proof.
  intros j k Hj Hk; pose proof inv_sqrt3 as H; unfold plane; set (h := / sqrt 3) in *; clearbody h.
  destruct j as [|[|[|j]]]; [| | |exfalso; lia]; (destruct k as [|[|[|k]]]; [| | |exfalso; lia]); cbn [Nat.eqb]; lra.
Qed.

Lemma plane_norm : forall a b, (a < 2)%nat -> (b < 2)%nat ->
  plane a 0 * plane b 0 + plane a 1 * plane b 1 + plane a 2 * plane b 2 = (if Nat.eqb a b then 1 else 0).
Proof.
  intros a b Ha Hb; pose proof inv_sqrt3 as H; unfold plane; set (h := / sqrt 3) in *; clearbody h.
  destruct a as [|[|a]]; [| |exfalso; lia]; (destruct b as [|[|b]]; [| |exfalso; lia]); cbn [Nat.eqb]; lra.
Qed.

Lemma plane_sum : forall a, (a < 2)%nat -> plane a 0 + plane a 1 + plane a 2 = 0.
Proof.
  intros a Ha; unfold plane; destruct a as [|[|a]]; [| |exfalso; lia]; cbn [Nat.eqb]; lra.
Qed.

Definition on_plane (P : mat) : mat := fun a b => sumn 3 (fun i => sumn 3 (fun j => plane a i * P i j * plane b j)).

Lemma on_plane_mul : forall P Q R, (forall i, (i < 3)%nat -> P i 0%nat + P i 1%nat + P i 2%nat = 1) ->
  (forall i j, (i < 3)%nat -> (j < 3)%nat -> R i j = P i 0%nat * Q 0%nat j + P i 1%nat * Q 1%nat j + P i 2%nat * Q 2%nat j) ->
  meq 2 2 (on_plane R) (mmul 2 (on_plane P) (on_plane Q)).
Proof.
  intros P Q R HP HR a b Ha Hb; unfold mmul, on_plane; cbn [sumn]; rewrite !HR by lia.
  set (x j := plane a 0 * P 0%nat j + plane a 1 * P 1%nat j + plane a 2 * P 2%nat j).
  set (y j := Q j 0%nat * plane b 0 + Q j 1%nat * plane b 1 + Q j 2%nat * plane b 2).
  assert (Sx : x 0%nat + x 1%nat + x 2%nat = 0).
  { unfold x; pose proof (plane_sum a Ha); pose proof (HP 0%nat ltac:(lia)) as H0; pose proof (HP 1%nat ltac:(lia)) as H1; pose proof (HP 2%nat ltac:(lia)) as H2.
    transitivity (plane a 0 * (P 0%nat 0%nat + P 0%nat 1%nat + P 0%nat 2%nat) + plane a 1 * (P 1%nat 0%nat + P 1%nat 1%nat + P 1%nat 2%nat)
      + plane a 2 * (P 2%nat 0%nat + P 2%nat 1%nat + P 2%nat 2%nat)); [ring|rewrite H0, H1, H2; lra]. }
  pose proof (plane_gram 0 0 ltac:(lia) ltac:(lia)) as G00; pose proof (plane_gram 0 1 ltac:(lia) ltac:(lia)) as G01;
  pose proof (plane_gram 0 2 ltac:(lia) ltac:(lia)) as G02; pose proof (plane_gram 1 1 ltac:(lia) ltac:(lia)) as G11;
  pose proof (plane_gram 1 2 ltac:(lia) ltac:(lia)) as G12; pose proof (plane_gram 2 2 ltac:(lia) ltac:(lia)) as G22.
  cbn [Nat.eqb] in *.
  transitivity (x 0%nat * y 0%nat + x 1%nat * y 1%nat + x 2%nat * y 2%nat); [unfold x, y; ring|].
  transitivity (x 0%nat * y 0%nat * (plane 0 0 * plane 0 0 + plane 1 0 * plane 1 0) + (x 0%nat * y 1%nat + x 1%nat * y 0%nat) * (plane 0 0 * plane 0 1 + plane 1 0 * plane 1 1)
    + (x 0%nat * y 2%nat + x 2%nat * y 0%nat) * (plane 0 0 * plane 0 2 + plane 1 0 * plane 1 2) + x 1%nat * y 1%nat * (plane 0 1 * plane 0 1 + plane 1 1 * plane 1 1)
    + (x 1%nat * y 2%nat + x 2%nat * y 1%nat) * (plane 0 1 * plane 0 2 + plane 1 1 * plane 1 2) + x 2%nat * y 2%nat * (plane 0 2 * plane 0 2 + plane 1 2 * plane 1 2));
    [|unfold x, y; ring].
  rewrite G00, G01, G02, G11, G12, G22.
  transitivity (x 0%nat * y 0%nat + x 1%nat * y 1%nat + x 2%nat * y 2%nat - 1 / 3 * ((x 0%nat + x 1%nat + x 2%nat) * (y 0%nat + y 1%nat + y 2%nat)));
    [rewrite Sx; ring|field].
Qed.

Lemma on_plane_id : forall P, meq 3 3 P mid -> meq 2 2 (on_plane P) mid.
Proof.
  intros P HP a b Ha Hb; unfold on_plane; cbn [sumn]; rewrite !HP by lia; unfold mid; cbn [Nat.eqb].
  rewrite <- (plane_norm a b Ha Hb); ring.
Qed.

Lemma on_plane_tr : forall P Q, meq 3 3 Q (mtr P) -> meq 2 2 (on_plane Q) (mtr (on_plane P)).
Proof.
  intros P Q H a b Ha Hb; unfold on_plane, mtr; cbn [sumn]; rewrite !H by lia; unfold mtr; ring.
Qed.

Lemma range_cases : forall l, in_range l -> (l = -1 \/ l = 0 \/ l = 1 \/ l = 2 \/ l = 3)%Z.
Proof. unfold in_range; intros; lia. Qed.

Lemma yzx_lt : forall i, (i < 3)%nat -> ((i + 1) mod 3 < 3)%nat.
Proof. intros; apply Nat.mod_upper_bound; lia. Qed.

Lemma yzx_mul : forall p q, meq 3 3 (yzx (as_matrix (qmul p q))) (mmul 3 (yzx (as_matrix p)) (yzx (as_matrix q))).
Proof.
  intros p q i j Hi Hj; unfold yzx; rewrite oct_mul_mat by (apply yzx_lt; assumption); unfold mmul; cbn [sumn].
  change ((0 + 1) mod 3)%nat with 1%nat; change ((1 + 1) mod 3)%nat with 2%nat; change ((2 + 1) mod 3)%nat with 0%nat; ring.
Qed.

Lemma value_mul : forall l p q, in_range l -> octahedral p -> octahedral q ->
  meq (octa_size l) (octa_size l) (octa_value l (qmul p q)) (mmul (octa_size l) (octa_value l p) (octa_value l q)).
Proof.
  intros l p q Hl Hp Hq; apply range_cases in Hl as [->|[->|[->|[->| ->]]]]; unfold octa_size, octa_value; cbn [Z.eqb Pos.eqb orb].
  - intros i j Hi Hj; unfold mscal; rewrite (yzx_mul p q i j Hi Hj), (sign_mul p q Hp); unfold mmul; cbn [sumn]; ring.
  - intros i j Hi Hj; unfold mmul, mid; destruct i; [|lia]; destruct j; [|lia]; cbn; ring.
  - apply yzx_mul.
  - apply on_plane_mul; [intros i Hi; apply squares_row; assumption|intros i j Hi Hj; apply squares_mul; assumption].
  - intros i j Hi Hj; unfold mmul; cbn [sumn]; rewrite (sign_mul p q Hp); ring.
Qed.

Lemma value_conj : forall l q, in_range l -> meq (octa_size l) (octa_size l) (octa_value l (qconj q)) (mtr (octa_value l q)).
Proof.
  intros l q Hl; apply range_cases in Hl as [->|[->|[->|[->| ->]]]]; unfold octa_size, octa_value; cbn [Z.eqb Pos.eqb orb].
  - intros i j Hi Hj; unfold mscal, yzx, mtr; rewrite sign_conj, (mat_conj q) by (apply yzx_lt; assumption); reflexivity.
  - intros i j Hi Hj; unfold mtr, mid; rewrite Nat.eqb_sym; reflexivity.
  - intros i j Hi Hj; unfold yzx, mtr; rewrite (mat_conj q) by (apply yzx_lt; assumption); reflexivity.
  - apply on_plane_tr; intros i j Hi Hj; unfold squares, mtr; rewrite (mat_conj q) by assumption; reflexivity.
  - intros i j Hi Hj; unfold mtr; apply sign_conj.
Qed.

Lemma id_mat : meq 3 3 (as_matrix so3_id) mid.
Proof.
  intros i j Hi Hj; unfold so3_id, mid; destruct i as [|[|[|i]]]; [| | |exfalso; lia]; (destruct j as [|[|[|j]]]; [| | |exfalso; lia]); cbn; ring.
Qed.

Lemma value_id : forall l, in_range l -> meq (octa_size l) (octa_size l) (octa_value l so3_id) mid.
Proof.
  intros l Hl; apply range_cases in Hl as [->|[->|[->|[->| ->]]]]; unfold octa_size, octa_value; cbn [Z.eqb Pos.eqb orb].
  - intros i j Hi Hj; unfold mscal, yzx; rewrite sign_id, (id_mat _ _ (yzx_lt i Hi) (yzx_lt j Hj)); unfold mid.
    destruct i as [|[|[|i]]]; [| | |exfalso; lia]; (destruct j as [|[|[|j]]]; [| | |exfalso; lia]); cbn; ring.
  - intros i j _ _; reflexivity.
  - intros i j Hi Hj; unfold yzx; rewrite (id_mat _ _ (yzx_lt i Hi) (yzx_lt j Hj)); unfold mid.
    destruct i as [|[|[|i]]]; [| | |exfalso; lia]; (destruct j as [|[|[|j]]]; [| | |exfalso; lia]); cbn; ring.
  - apply on_plane_id; intros i j Hi Hj; unfold squares; rewrite (id_mat i j Hi Hj); unfold mid; destruct (Nat.eqb i j); ring.
  - intros i j Hi Hj; rewrite sign_id; unfold mid; destruct i; [|lia]; destruct j; [reflexivity|lia].
Qed.

Lemma value_same : forall l p q, same_rotation p q -> octahedral p -> octahedral q -> octa_value l p = octa_value l q.
Proof.
  intros l p q S [Up _] [Uq _]; destruct (mat_inj p q Up Uq S) as [->| ->]; [reflexivity|].
  unfold octa_value; rewrite mat_opp; reflexivity.
Qed.

Lemma octa_conj_mul_l : forall q, octahedral q -> qmul (qconj q) q = so3_id.
Proof.
  intros q Hq; pose proof (grp_inv_l _ _ _ _ octa_group q (qconj q) Hq (octa_inv_ok q Hq)) as E.
  rewrite octa_mul_ok in E by (assumption || apply octahedral_conj; assumption); apply Ret_inj in E; exact E.
Qed.

Lemma value_orth : forall l q, in_range l -> octahedral q -> orthogonal (octa_size l) (octa_value l q).
Proof.
  intros l q Hl Hq; pose proof (octahedral_conj q Hq) as Hc; split.
  - eapply meq_trans; [|eapply meq_trans; [|apply value_id; exact Hl]].
    + apply mmul_ext; [apply meq_refl|apply meq_sym, value_conj; exact Hl].
    + rewrite <- (octa_conj_mul q Hq); apply meq_sym, value_mul; assumption.
  - eapply meq_trans; [|eapply meq_trans; [|apply value_id; exact Hl]].
    + apply mmul_ext; [apply meq_sym, value_conj; exact Hl|apply meq_refl].
    + rewrite <- (octa_conj_mul_l q Hq); apply meq_sym, value_mul; assumption.
Qed.

Lemma value_rep : forall l, in_range l -> orth_rep octahedral octa_mul octa_inv so3_id (octa_size l) (octa_fun l).
Proof.
  intros l Hl; unfold octa_fun; split.
  - intros g Hg; eexists; split; [reflexivity|apply value_orth; assumption].
  - eexists; split; [reflexivity|apply value_id; exact Hl].
  - intros g h Hg Hh; exists (qmul g h), (octa_value l g), (octa_value l h), (octa_value l (qmul g h)).
    split; [apply octa_mul_ok; assumption|do 3 (split; [reflexivity|]); apply value_mul; assumption].
  - intros g Hg; exists (qconj g), (octa_value l g), (octa_value l (qconj g)).
    split; [apply octa_inv_ok; assumption|do 2 (split; [reflexivity|]); apply value_conj; exact Hl].
Qed.
