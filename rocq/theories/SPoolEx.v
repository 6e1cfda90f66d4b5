(** Examples for the pooling layers. *)
From Coq Require Import Reals List ZArith Lia Lra Bool Arith.
From Verif Require Import LibRes LibMat GridModel SpecGrid GridProofs GridThms ImageModel SpecImage ImageProofs MaskThms ConvThms ShapeModel SPoolModel SpecSPool SpecPool SPoolProofs SPoolThms SPoolBlur SPoolCor ImageEx.
Import ListNotations.
Open Scope R_scope.

(** Picking the first of two pixels does not commute with exchanging them. *)
Lemma first_pixel : forall half, half 0 = 0 -> half 1 = 1 -> half (-1) = -1 -> forall affine (F : array R -> res (array R)),
  (forall u, shape u = [1; 1; 2]%nat -> exists v, F u = Ret v /\ shape v = [1; 1; 1]%nat /\ entry v [0; 0; 0]%nat = entry u [0; 0; 0]%nat) ->
  exists x y x' y' z, shape x = [1; 1; 2]%nat /\ F x = Ret y /\ transform half affine 1 mid 1 mirror x = Ret x' /\ F x' = Ret y' /\
    transform half affine 1 mid 1 mirror y = Ret z /\ ~ same_array y' z.
Proof.
  intros half H0 H1 Hm affine F Cv.
  set (x := {| shape := [1; 1; 2]%nat; entry := fun idx => INR (nth 2 idx 0%nat) |}).
  destruct (transform_ok half H0 H1 Hm affine 1 mid 1 mirror x 1 [2%nat] mirror_signed eq_refl eq_refl) as (x1 & x' & E1 & Ex' & Sx1 & F1 & M1).
  destruct (Cv x eq_refl) as (yx & Cx & Sy & Vy).
  destruct M1 as (Lx' & Fx' & Hx' & Ha & _).
  assert (Sx' : shape x' = [1; 1; 2]%nat).
  { rewrite Sx1 in *; cbn in Lx', Fx'. destruct (shape x') as [|a [|c [|e [|? ?]]]] eqn:E; cbn in Lx'; try discriminate. cbn in Fx'; injection Fx' as -> ->.
    specialize (Hx' 0%nat 0%nat ltac:(lia) ltac:(lia)); cbn in Hx'; rewrite Hx'; [reflexivity|unfold mirror; cbn; lra]. }
  assert (V1 : valid (shape x1) [0; 0; 1]%nat) by (rewrite Sx1; repeat constructor).
  destruct (Ha _ V1) as (idx' & V' & (Fi & Ci) & Ei). rewrite Sx', Sx1 in *.
  destruct idx' as [|a [|c [|e [|? ?]]]]; try (apply valid_nth in V' as (LL & _); discriminate). cbn in Fi; injection Fi as -> ->.
  specialize (Ci 0%nat ltac:(lia)); unfold coord, axis, mirror in Ci; cbn -[Rmult Rplus INR Rdiv] in Ci; cbn in Ci.
  assert (e = 0%nat) as -> by (apply INR_eq; cbn; lra).
  rewrite F1 in Ei; cbn in Ei; unfold mid in Ei; cbn in Ei.
  destruct (Cv x' Sx') as (yx' & Cx' & Sy' & Vy').
  destruct (transform_ok half H0 H1 Hm affine 1 mid 1 mirror yx 1 [1%nat] mirror_signed Sy eq_refl) as (y1 & z & E2 & Ez & Sy1 & F2 & M2).
  exists x, yx, x', yx', z.
  split; [reflexivity|split; [exact Cx|split; [exact Ex'|split; [exact Cx'|split; [exact Ez|]]]]].
  intros (Es & Eq). destruct M2 as (_ & _ & _ & Hb & _).
  assert (V2 : valid (shape y1) [0; 0; 0]%nat) by (rewrite Sy1, Sy; repeat constructor).
  destruct (Hb _ V2) as (j & Vj & _ & Ej). rewrite <- Es, Sy' in Vj.
  assert (j = [0; 0; 0]%nat) as ->.
  { apply valid_nth in Vj as (Lj & Vj); cbn in Lj, Vj. destruct j as [|a [|c [|e [|? ?]]]]; try discriminate.
    pose proof (Vj 0%nat ltac:(lia)); pose proof (Vj 1%nat ltac:(lia)); pose proof (Vj 2%nat ltac:(lia)); cbn in *; f_equal; [lia|f_equal; [lia|f_equal; lia]]. }
  specialize (Eq [0; 0; 0]%nat ltac:(rewrite Sy'; repeat constructor)).
  rewrite Ej, F2 in Eq; cbn in Eq; unfold mid in Eq; cbn in Eq. rewrite Vy, Vy', Ei in Eq; cbn in Eq; lra.
Qed.

Lemma max_stride_needed : forall half, half 0 = 0 -> half 1 = 1 -> half (-1) = -1 -> forall affine ceil,
  exists x y x' y' z, shape x = [1; 1; 2]%nat /\ max_forward (max_init 1 (Some 2%nat) 0 1 ceil) x = Ret y /\ transform half affine 1 mid 1 mirror x = Ret x' /\
    max_forward (max_init 1 (Some 2%nat) 0 1 ceil) x' = Ret y' /\ transform half affine 1 mid 1 mirror y = Ret z /\ ~ same_array y' z.
Proof.
  intros half H0 H1 Hm affine ceil. apply (first_pixel half H0 H1 Hm affine). intros u Eu. unfold max_forward, max_pool; rewrite Eu. destruct ceil; eexists; repeat split; reflexivity.
Qed.
Lemma avg_stride_needed : forall half, half 0 = 0 -> half 1 = 1 -> half (-1) = -1 -> forall affine ceil,
  exists x y x' y' z, shape x = [1; 1; 2]%nat /\ avg_forward 1 (Some 2%nat) 0 ceil x = Ret y /\ transform half affine 1 mid 1 mirror x = Ret x' /\
    avg_forward 1 (Some 2%nat) 0 ceil x' = Ret y' /\ transform half affine 1 mid 1 mirror y = Ret z /\ ~ same_array y' z.
Proof.
  intros half H0 H1 Hm affine ceil. apply (first_pixel half H0 H1 Hm affine). intros u Eu. unfold avg_forward, avg_pool; rewrite Eu.
  destruct ceil; (eexists; split; [reflexivity|split; [reflexivity|]]; cbn -[Rplus Rmult Rdiv INR]; cbn [INR]; unfold rsum; cbn; field).
Qed.

(** Two channels exchanged, images of 4 x 6 pixels *)
Definition swap : mat := fun i j => if Nat.eqb i (1 - j) then 1 else 0.
Definition ramp : array R := {| shape := [1; 2; 4; 6]%nat; entry := fun idx => INR (nth 3 idx 0%nat) - INR (nth 1 idx 0%nat) |}.
Lemma swap_permutes : SpecPool.permutes 2 swap.
Proof. exists (fun j => 1 - j)%nat; repeat split; intros; try lia. Qed.
Lemma max_example : signed_perm 2 quarter /\ SpecPool.permutes 2 swap /\ Forall (fits 2 2 1 1) [4; 6]%nat /\
  (exists y, max_forward (max_init 2 None 1 1 true) ramp = Ret y) /\ exists y, avg_forward 2 None 1 true ramp = Ret y.
Proof.
  split; [apply quarter_signed|split; [apply swap_permutes|split; [|split]]].
  - constructor; [exists 2%nat; reflexivity|constructor; [exists 3%nat; reflexivity|constructor]].
  - unfold max_forward, max_pool; cbn [ramp shape]. eexists; reflexivity.
  - unfold avg_forward, avg_pool; cbn [ramp shape]. eexists; reflexivity.
Qed.

(** sigma = 1/3: a filter of size 3 for the averages, and 3 again for the maxima *)
Definition to_one : R -> nat := fun _ => 1%nat.
Lemma blur_example : Forall (fun w => exists q, (w + 4 * 0 = 2 + 2 * q)%nat) [4; 6]%nat /\ (exists y, amax_forward to_one (1 / 3) (max_init 2 (Some 2%nat) 0 1 false) 2 2 ramp = Ret y) /\
  Forall (fits (2 * to_one 1 + 1) 1 1 1) [4; 6]%nat /\ exists y, aavg_forward to_one (1 / 3) (Some 1%nat) None 2 2 ramp = Ret y.
Proof.
  split; [constructor; [exists 1%nat; reflexivity|constructor; [exists 2%nat; reflexivity|constructor]]|split; [|split]].
  - unfold amax_forward; cbn [max_init m_dilation Nat.eqb assert_ bind]. destruct (Rlt_dec 0 (1 / 3)) as [_|N]; [|exfalso; lra]. eexists; reflexivity.
  - constructor; [exists 3%nat; reflexivity|constructor; [exists 5%nat; reflexivity|constructor]].
  - unfold aavg_forward. destruct (Rlt_dec 0 (1 / 3)) as [_|N]; [|exfalso; lra]. eexists; reflexivity.
Qed.
Lemma amax_mis_example : exists y, amax_forward to_one (1 / 3) (max_init 2 (Some 2%nat) 1 1 false) 2 2 ramp = Ret y.
Proof. unfold amax_forward; cbn [max_init m_dilation Nat.eqb assert_ bind]. destruct (Rlt_dec 0 (1 / 3)) as [_|N]; [|exfalso; lra]. eexists; reflexivity. Qed.
Lemma aavg_constant_example : exists y, aavg_forward to_one (1 / 3) (Some 1%nat) (Some 0%nat) 2 2 {| shape := [1; 2; 4; 6]%nat; entry := fun _ => 7 |} = Ret y.
Proof. unfold aavg_forward. destruct (Rlt_dec 0 (1 / 3)) as [_|N]; [|exfalso; lra]. eexists; reflexivity. Qed.

(** In ceil mode the export computes something else. *)
Lemma export_differs : let l := max_init 2 (Some 2%nat) 0 1 true in exists y y', 
  max_forward l {| shape := [1; 1; 3; 3]%nat; entry := fun _ => 0 |} = Ret y /\ torch_max (max_export l) {| shape := [1; 1; 3; 3]%nat; entry := fun _ => 0 |} = Ret y' /\
  shape y = [1; 1; 2; 2]%nat /\ shape y' = [1; 1; 1; 1]%nat.
Proof. intros l; eexists _, _; repeat split; reflexivity. Qed.
Lemma adaptive_example : (exists y, adaptive_avg_forward 3 ramp = Ret y) /\ (exists y, adaptive_max_forward 3 ramp = Ret y).
Proof. split; eexists; reflexivity. Qed.
