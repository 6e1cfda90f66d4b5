(** A small instance: the sign group over its trivial subgroup. *)
From Coq Require Import Reals ZArith Bool List Lia Lra Arith.
From Verif Require Import LibRes LibMat LibMatS LibTrig SpecGroup ParamModel ParamProofs IrrepModel SpecRep
  RepModel SpecRepr RepProofs RepThms RegModel SpecReg IndModel SpecInd IndProofs.
Import ListNotations.
Open Scope R_scope.

Definition toy_op (a b : bool) : res bool := Ret (xorb a b).
Definition toy_sign (k : Z) (g : bool) : R := if g then (if (k =? 0)%Z then 1 else -1) else 1.
Definition toy_g (k : Z) : girrep bool :=
  {| gi_id := [k]; gi_size := 1; gi_sosc := 1; gi_endo := [mid];
     gi_rep := fun g => Ret (1%nat, fun _ _ => toy_sign k g); gi_char := fun g => Ret (toy_sign k g) |}.
Definition toy_irrG (id : list Z) : res (girrep bool) :=
  match id with [k] => Ret (toy_g k) | _ => Raise end.
Definition toy_h : girrep unit :=
  {| gi_id := [0%Z]; gi_size := 1; gi_sosc := 1; gi_endo := [mid];
     gi_rep := fun _ => Ret (1%nat, mid); gi_char := fun _ => Ret 1 |}.
Definition toy_irrH (id : list Z) : res (girrep unit) := match id with [0%Z] => Ret toy_h | _ => Raise end.
Definition toy_restrict (id : list Z) : res (repr unit) := Ret (repr_of_irrep toy_h).
Definition toy_incl (_ : unit) : res bool := Ret false.
Definition toy_same (a b : bool) : res bool := Ret (eqb a b).

Lemma toy_group : is_group (fun _ => True) toy_op (fun a : bool => Ret a) false.
Proof.
  split; unfold toy_op; try (intros; eexists; split; [reflexivity|trivial]); auto.
  - intros a b c ab bc _ _ _ E1 E2; apply Ret_inj in E1, E2; subst; f_equal; destruct a, b, c; reflexivity.
  - intros [|] _; reflexivity.
  - intros [|] _; reflexivity.
  - intros a b _ E; apply Ret_inj in E; subst; destruct b; reflexivity.
  - intros a b _ E; apply Ret_inj in E; subst; destruct b; reflexivity.
Qed.

Lemma toy_embedding : is_embedding (fun _ => True) toy_op (fun _ : unit => True) (fun _ _ => Ret tt) toy_incl.
Proof.
  split; unfold toy_incl, toy_op.
  - intros; eexists; split; [reflexivity|trivial].
  - intros [] []; reflexivity.
  - intros h1 h2 h12 g1 g2 _ _ _ E1 E2; apply Ret_inj in E1, E2; subst; reflexivity.
Qed.

Definition toy_good (id : list Z) : Prop :=
  good_irrep (fun _ => True) toy_op (fun a : bool => Ret a) false (fun _ : unit => True) toy_incl toy_irrG toy_irrH toy_restrict id.

Lemma toy_orth : forall k, orth_rep (fun _ => True) toy_op (fun a : bool => Ret a) false 1 (gi_rep (toy_g k)).
Proof.
  intros k; assert (Q : forall g, toy_sign k g * toy_sign k g = 1) by (intros [|]; unfold toy_sign; destruct (k =? 0)%Z; lra).
  split; cbn [toy_g gi_rep].
  - intros g _; eexists; split; [reflexivity|]; split; intros i j Hi Hj; unfold mmul, mtr, mid; cbn [sumn];
      rewrite Q; replace i with 0%nat by lia; replace j with 0%nat by lia; cbn; lra.
  - eexists; split; [reflexivity|]; intros i j Hi Hj; replace i with 0%nat by lia; replace j with 0%nat by lia; reflexivity.
  - intros g h _ _; eexists _, _, _, _; repeat split; intros i j Hi Hj; unfold mmul; cbn [sumn].
    destruct g, h; unfold toy_sign; cbn; destruct (k =? 0)%Z; lra.
  - intros g _; eexists _, _, _; repeat split.
Qed.

Lemma toy_irreps : forall k, toy_good [k].
Proof.
  intros k; exists (toy_g k); split; [reflexivity|split; [reflexivity|split; [|split]]].
  - exists (toy_g k); split; [reflexivity|split; [reflexivity|split; [cbn; lia|split]]].
    + exact (orth_lin _ _ _ _ _ _ _ (toy_orth k)).
    + intros g _; eexists; split; [reflexivity|]; cbn; f_equal; unfold trace; cbn; lra.
  - exact (toy_orth k).
  - intros r E; apply Ret_inj in E; subst r; split; [reflexivity|split].
    + split; [apply inverse_of_mid|]; intros g _; exists [(1%nat, mid)], mid; cbn.
      repeat split; intros i j Hi Hj; replace i with 0%nat by lia; replace j with 0%nat by lia; unfold mmul; cbn; lra.
    + intros h _; eexists _, _, _; cbn; repeat split; intros i j Hi Hj.
      replace i with 0%nat by lia; replace j with 0%nat by lia; reflexivity.
Qed.

Definition toy_cob : mat := columns_mat
  [(fun row => mmul 1 (nth (row / 1) [fun _ _ : nat => 1; fun _ _ => 1] mzero) (mmul 1 mid (fun a b => if (Nat.leb 0 a && Nat.ltb a 1)%bool then 1 * mid (a - 0)%nat b + 0 else 0)) 0%nat (row mod 1) / sqrt 2 / sqrt 1 * sqrt 1);
   (fun row => mmul 1 (nth (row / 1) [fun _ _ : nat => 1; fun _ _ => -1] mzero) (mmul 1 mid (fun a b => if (Nat.leb 0 a && Nat.ltb a 1)%bool then 1 * mid (a - 0)%nat b + 0 else 0)) 0%nat (row mod 1) / sqrt 2 / sqrt 1 * sqrt 1)].

Lemma toy_entries : forall i j, (i < 2)%nat -> (j < 2)%nat ->
  toy_cob i j = (if Nat.eqb i 1 && Nat.eqb j 1 then -1 else 1)%bool / sqrt 2.
Proof.
  intros i j Hi Hj; destruct i as [|[|i]]; [| |lia]; (destruct j as [|[|j]]; [| |lia]); unfold toy_cob, columns_mat, mmul; cbn;
    rewrite sqrt_1; field; apply Rgt_not_eq, sqrt_lt_R0; lra.
Qed.

Lemma toy_orthogonal : orthogonal 2 toy_cob.
Proof.
  assert (Q : / sqrt 2 * / sqrt 2 = / 2) by (rewrite <- Rinv_mult, sqrt_sqrt by lra; reflexivity).
  split; intros i j Hi Hj; unfold mmul, mtr; cbn [sumn]; rewrite !toy_entries by lia; unfold Rdiv;
    (destruct i as [|[|i]]; [| |lia]); (destruct j as [|[|j]]; [| |lia]); cbn; lra.
Qed.

Lemma toy_sharp : sharp 2 toy_cob.
Proof.
  right; destruct (allclose 2 2 toy_cob mid) eqn:E; [|reflexivity]; exfalso.
  rewrite allclose_true in E; specialize (E 0%nat 1%nat ltac:(lia) ltac:(lia)).
  unfold np_isclose in E; apply Rleb_true in E; rewrite toy_entries in E by lia; cbn in E.
  assert (H3 : sqrt 2 < 2) by (replace 2 with (sqrt (2 * 2)) at 2 by (apply sqrt_square; lra); apply sqrt_lt_1_alt; lra).
  assert (H0 : 0 < sqrt 2) by (apply sqrt_lt_R0; lra).
  assert (H4 : / 2 < / sqrt 2) by (apply Rinv_lt_contravar; nra).
  rewrite Rminus_0_r, Rabs_pos_eq, Rabs_R0 in E by (unfold Rdiv; lra); unfold Rdiv in E; lra.
Qed.

Lemma toy_build : forall comp, build_induced toy_irrG toy_irrH toy_restrict comp toy_same (Some 2%nat)
  [[0%Z]; [1%Z]] toy_h [false; true] = Ret ([[0%Z]; [1%Z]], toy_cob, mtr toy_cob).
Proof.
  intros comp.
  assert (N : nonnull toy_h = [0%nat]).
  { unfold nonnull; cbn [toy_h gi_size gi_endo seq filter map fold_right].
    replace (negb (Rleb (mid 0%nat 0%nat ^ 2 + 0) (/ 10 ^ 9))) with true; [reflexivity|].
    symmetry; apply negb_true_iff, Rleb_false; cbn; lra. }
  assert (D : forall k, dirac_kernel_ft toy_irrH toy_restrict comp (toy_g k) toy_h =
    Ret [mmul 1 mid (fun a b => if (Nat.leb 0 a && Nat.ltb a 1)%bool then 1 * mid (a - 0)%nat b + 0 else 0)]).
  { intros k; unfold dirac_kernel_ft; cbn [toy_restrict bind repr_of_irrep r_irreps toy_h gi_id psi_slices toy_irrH].
    destruct (list_eq_dec Z.eq_dec [0%Z] [0%Z]) as [_|X]; [|congruence]; fold toy_h; rewrite N.
    cbn [length gi_sosc toy_h Nat.eqb assert_ bind map app]; reflexivity. }
  unfold build_induced; cbn [length Nat.eqb assert_ bind seq combine mapM toy_irrG fst snd toy_same negb eqb].
  cbn [gi_size toy_h Nat.mul Nat.add].
  assert (St : forall k cs, cs = ift_columns (toy_g k) toy_h [fun _ _ => toy_sign k false; fun _ _ => toy_sign k true]
      [mmul 1 mid (fun a b => if (Nat.leb 0 a && Nat.ltb a 1)%bool then 1 * mid (a - 0)%nat b + 0 else 0)] ->
      allclose 1 1 (mmul 2 (mtr (columns_mat cs)) (columns_mat cs)) mid = true ->
      induced_step toy_irrH toy_restrict comp toy_h [false; true] 2 (toy_g k) = Ret ([toy_g k], cs)).
  { intros k cs -> A; unfold induced_step; rewrite D; cbn [bind mapM toy_g gi_rep snd].
    apply assert_Ret; split; [exact A|reflexivity]. }
  pose proof toy_orthogonal as [O1 O2].
  rewrite (St 0%Z _ eq_refl), (St 1%Z _ eq_refl).
  - cbn [bind flat_map fst snd ift_columns map seq gi_size toy_g app length Nat.eqb assert_ gi_id].
    match goal with |- context [allclose 2 2 (mmul 2 ?C (mtr ?C)) mid] => change C with toy_cob end.
    rewrite (allclose_meq 2 2 _ _ O1), (allclose_meq 2 2 _ _ O2); reflexivity.
  - apply allclose_meq; intros i j Hi Hj; specialize (O2 1%nat 1%nat ltac:(lia) ltac:(lia)).
    replace i with 0%nat by lia; replace j with 0%nat by lia; exact O2.
  - apply allclose_meq; intros i j Hi Hj; specialize (O2 0%nat 0%nat ltac:(lia) ltac:(lia)).
    replace i with 0%nat by lia; replace j with 0%nat by lia; exact O2.
Qed.

Lemma toy_transversal : transversal (fun _ => True) toy_op (fun _ : unit => True) toy_incl [false; true].
Proof.
  split; [repeat constructor; cbn; intuition congruence|split; [repeat constructor|]].
  intros x _; exists x; split; [destruct x; cbn; auto|split].
  - exists tt, false; repeat split; unfold toy_op; destruct x; reflexivity.
  - intros r' _ (h & g & _ & E & E'); apply Ret_inj in E; subst g; unfold toy_op in E'; apply Ret_inj in E'; destruct r', x; auto; discriminate.
Qed.
