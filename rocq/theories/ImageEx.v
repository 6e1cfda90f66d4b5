(** Examples for the layers on images. *)
From Coq Require Import Reals List Lia Lra Bool.
From Verif Require Import LibRes LibMat GridModel SpecGrid GridProofs GridThms ImageModel SpecImage ImageProofs MaskThms ConvThms.
Import ListNotations.
Open Scope R_scope.

Definition quarter : mat := fun i j => match i, j with 0%nat, 1%nat => -1 | 1%nat, 0%nat => 1 | _, _ => 0 end.
Definition mirror : mat := fun i j => if Nat.eqb i j then -1 else 0.
(** the kernel x |-> x *)
Definition radial : (nat -> R) -> mat := fun x o i => x o.

Lemma quarter_signed : signed_perm 2 quarter.
Proof.
  exists (fun i => 1 - i)%nat, (fun i => match i with 0%nat => -1 | _ => 1 end); repeat split.
  - intros; lia.
  - intros; lia.
  - intros [|[|i]] H; [right|left|lia]; reflexivity.
  - intros [|[|i]] [|[|j]] Hi Hj; try lia; reflexivity.
Qed.

Lemma conv_example : signed_perm 2 quarter /\ kernel_on 2 2 1 radial /\ steers 2 2 1 quarter mid quarter radial /\ repeats 1 1 mid mid /\ in_blocks 1 2 quarter /\
  exists y, conv_forward PadCircular 1 1 2 1 (reshape_filter 2 1 3 2 (fun o i q => radial (grid_coords 3 1 q) o i)) None
    {| shape := [1; 1; 3; 5]%nat; entry := fun idx => INR (nth 3 idx 0%nat) |} = Ret y.
Proof.
  split; [apply quarter_signed|]. split; [intros x y H o i Ho _; apply H; exact Ho|].
  split; [intros x o i Ho Hi; unfold radial, mvec; cbn; assert (i = 0%nat) as -> by lia; unfold mid; cbn; ring|].
  split; [intros i j Hi Hj; assert (i = 0%nat) as -> by lia; assert (j = 0%nat) as -> by lia; reflexivity|].
  split; [intros i j Hi Hj E; exfalso; apply E; rewrite !Nat.div_small by (cbn; lia); reflexivity|].
  eexists; reflexivity.
Qed.

Lemma mirror_signed : signed_perm 1 mirror.
Proof.
  exists (fun i => i), (fun _ => -1); repeat split; auto. intros i j _ _; unfold mirror; rewrite Nat.eqb_sym; reflexivity.
Qed.

Lemma stride_needed : forall half, half 0 = 0 -> half 1 = 1 -> half (-1) = -1 -> forall affine,
  exists x y x' y' z, kernel_on 1 1 1 (fun _ => mid) /\ steers 1 1 1 mirror mid mid (fun _ => mid) /\ shape x = [1; 1; 2]%nat /\
    conv_forward PadZeros 0 1 2 1 (reshape_filter 1 1 1 1 (fun o i q => mid o i)) None x = Ret y /\
    transform half affine 1 mid 1 mirror x = Ret x' /\
    conv_forward PadZeros 0 1 2 1 (reshape_filter 1 1 1 1 (fun o i q => mid o i)) None x' = Ret y' /\
    transform half affine 1 mid 1 mirror y = Ret z /\ ~ same_array y' z.
Proof.
  intros half H0 H1 Hm affine.
  set (x := {| shape := [1; 1; 2]%nat; entry := fun idx => INR (nth 2 idx 0%nat) |}).
  destruct (transform_ok half H0 H1 Hm affine 1 mid 1 mirror x 1 [2%nat] mirror_signed eq_refl eq_refl) as (x1 & x' & E1 & Ex' & Sx1 & F1 & M1).
  set (y := {| shape := [1; 1; 1]%nat; entry := entry x |}).
  assert (Cv : forall u, shape u = [1; 1; 2]%nat -> exists v, conv_forward PadZeros 0 1 2 1 (reshape_filter 1 1 1 1 (fun o i q => mid o i)) None u = Ret v /\
    shape v = [1; 1; 1]%nat /\ entry v [0; 0; 0]%nat = entry u [0; 0; 0]%nat).
  { intros u Eu; unfold conv_forward, pad; rewrite Eu; cbn -[Rmult Rplus mid]. eexists; split; [reflexivity|]; cbn -[Rmult Rplus mid]. split; [reflexivity|unfold mid; cbn; ring]. }
  destruct (Cv x eq_refl) as (yx & Cx & Sy & Vy).
  destruct (signed_perm_does 1 mirror mirror_signed) as (p & b & D).
  pose proof M1 as M1'. destruct M1 as (Lx' & Fx' & Hx' & Ha & _).
  assert (Sx' : shape x' = [1; 1; 2]%nat).
  { rewrite Sx1 in *; cbn in Lx', Fx'. destruct (shape x') as [|a [|c [|e [|? ?]]]] eqn:E; cbn in Lx'; try discriminate. cbn in Fx'; injection Fx' as -> ->.
    specialize (Hx' 0%nat 0%nat ltac:(lia) ltac:(lia)); cbn in Hx'; rewrite Hx'; [reflexivity|unfold mirror; cbn; lra]. }
  assert (V1 : valid (shape x1) [0; 0; 1]%nat) by (rewrite Sx1; repeat constructor).
  destruct (Ha _ V1) as (idx' & V' & (Fi & Ci) & Ei). rewrite Sx', Sx1 in *.
  destruct idx' as [|a [|c [|e [|? ?]]]]; try (apply valid_nth in V' as (LL & _); discriminate). cbn in Fi; injection Fi as -> ->.
  specialize (Ci 0%nat ltac:(lia)); unfold coord, axis, mirror in Ci; cbn -[Rmult Rplus INR Rdiv] in Ci; cbn in Ci.
  assert (e = 0%nat) as -> by (apply INR_eq; cbn; lra).
  rewrite F1 in Ei; cbn in Ei; unfold mid in Ei; cbn in Ei.
  destruct (Cv x' Sx') as (yx' & Cx' & Sy' & Vy').
  destruct (transform_ok half H0 H1 Hm affine 1 mid 1 mirror yx 1 [1%nat] mirror_signed Sy eq_refl) as (y1 & z & E2 & Ez & Sy1 & F2 & M2).
  exists x, yx, x', yx', z. split; [intros ? ? ? o i _ _; reflexivity|]. split; [intros v o i Ho Hi; cbn; ring|].
  split; [reflexivity|split; [exact Cx|split; [exact Ex'|split; [exact Cx'|split; [exact Ez|]]]]].
  intros (Es & Eq). destruct M2 as (_ & _ & _ & Hb & _).
  assert (V2 : valid (shape y1) [0; 0; 0]%nat) by (rewrite Sy1, Sy; repeat constructor).
  destruct (Hb _ V2) as (j & Vj & _ & Ej). rewrite <- Es, Sy' in Vj.
  assert (j = [0; 0; 0]%nat) as ->.
  { apply valid_nth in Vj as (Lj & Vj); cbn in Lj, Vj. destruct j as [|a [|c [|e [|? ?]]]]; try discriminate.
    pose proof (Vj 0%nat ltac:(lia)); pose proof (Vj 1%nat ltac:(lia)); pose proof (Vj 2%nat ltac:(lia)); cbn in *; f_equal; [lia|f_equal; [lia|f_equal; lia]]. }
  specialize (Eq [0; 0; 0]%nat ltac:(rewrite Sy'; repeat constructor)).
  rewrite Ej, F2 in Eq; cbn in Eq; unfold mid in Eq; cbn in Eq. rewrite Vy, Vy', Ei in Eq; cbn in Eq; lra.
Qed.

Lemma mask_example : signed_perm 2 quarter /\ exists mask, build_mask 3 2 0 2 = Ret mask /\ entry mask [0; 0; 0; 0]%nat < 1 /\ entry mask [0; 0; 0; 1]%nat = 1.
Proof.
  split; [apply quarter_signed|]. destruct (proj2 (mask_built 3 2 0 2)) as (mask & E); [left; lra|]; exists mask; split; [exact E|].
  destruct (mask_values _ _ _ _ _ E) as (V & _). split.
  - destruct (V [0; 0]%nat) as ((_ & L) & I); [repeat constructor|]. destruct (Req_dec (entry mask [0; 0; 0; 0]%nat) 1) as [Z|Z]; [|lra].
    apply I in Z; unfold dist2 in Z; cbn in Z; lra.
  - destruct (V [0; 1]%nat) as (_ & I); [repeat constructor|]. apply I; unfold dist2; cbn; lra.
Qed.
