(** Examples for transposed convolutions. *)
From Coq Require Import Reals ZArith List Lia Lra.
From Verif Require Import LibRes LibMat GridModel SpecGrid GridProofs GridThms ImageModel SpecImage ImageProofs MaskThms ConvThms TransposedModel TransposedThms ImageEx.
Import ListNotations.
Open Scope R_scope.

Lemma transposed_example : signed_perm 2 quarter /\ kernel_on 2 2 1 radial /\ steers 2 2 1 quarter mid quarter radial /\ repeats 1 2 quarter quarter /\ in_blocks 1 1 mid /\
  exists y, transposed_forward 1 2 1 0 1 2 1 3 2 (fun o i q => radial (grid_coords 3 1 q) o i) None
    {| shape := [1; 1; 3; 5]%nat; entry := fun idx => INR (nth 3 idx 0%nat) |} = Ret y.
Proof.
  destruct conv_example as (A & B & C & _). split; [exact A|split; [exact B|split; [exact C|]]].
  split; [intros i j Hi Hj; rewrite (Nat.div_small i), (Nat.div_small j), (Nat.mod_small i), (Nat.mod_small j) by lia; reflexivity|].
  split; [intros i j Hi Hj E; exfalso; apply E; assert (i = 0%nat) as -> by lia; assert (j = 0%nat) as -> by lia; reflexivity|].
  eexists; reflexivity.
Qed.

Lemma output_padding_breaks : forall half, half 0 = 0 -> half 1 = 1 -> half (-1) = -1 -> forall affine,
  exists x y x' y' z, kernel_on 1 1 1 (fun _ => mid) /\ steers 1 1 1 mirror mid mid (fun _ => mid) /\ shape x = [1; 1; 1]%nat /\
    transposed_forward 1 2 0 1 1 1 1 1 1 (fun o i q => mid o i) None x = Ret y /\
    transform half affine 1 mid 1 mirror x = Ret x' /\
    transposed_forward 1 2 0 1 1 1 1 1 1 (fun o i q => mid o i) None x' = Ret y' /\
    transform half affine 1 mid 1 mirror y = Ret z /\ ~ same_array y' z.
Proof.
  intros half H0 H1 Hm affine.
  set (x := {| shape := [1; 1; 1]%nat; entry := fun idx => 1 |}).
  destruct (transform_ok half H0 H1 Hm affine 1 mid 1 mirror x 1 [1%nat] mirror_signed eq_refl eq_refl) as (x1 & x' & E1 & Ex' & Sx1 & F1 & M1).
  assert (Cv : forall u, shape u = [1; 1; 1]%nat -> exists v, transposed_forward 1 2 0 1 1 1 1 1 1 (fun o i q => mid o i) None u = Ret v /\
    shape v = [1; 1; 2]%nat /\ entry v [0; 0; 0]%nat = entry u [0; 0; 0]%nat /\ entry v [0; 0; 1]%nat = 0).
  { intros u Eu; unfold transposed_forward, conv_transpose; rewrite Eu; cbn -[Rmult Rplus mid]. eexists; split; [reflexivity|]; cbn -[Rmult Rplus mid]. split; [reflexivity|]. unfold mid; cbn; split; ring. }
  destruct (Cv x eq_refl) as (yx & Cx & Sy & Vy & Vy1).
  destruct (signed_perm_does 1 mirror mirror_signed) as (p & b & D).
  apply (moved_iff _ x1 x' 2 1 mirror p b [1; 1]%nat [1%nat] D Sx1 eq_refl eq_refl) in M1; destruct M1 as (Sx' & M1).
  assert (Sx2 : shape x' = [1; 1; 1]%nat).
  { rewrite Sx'; unfold pshape; cbn. rewrite (proj1 (Nat.lt_1_r (p 0%nat)) (proj1 (proj1 D) 0%nat ltac:(lia))); reflexivity. }
  destruct (Cv x' Sx2) as (yx' & Cx' & Sy' & Vy' & Vy1').
  destruct (transform_ok half H0 H1 Hm affine 1 mid 1 mirror yx 1 [2%nat] mirror_signed Sy eq_refl) as (y1 & z & E2 & Ez & Sy1 & F2 & M2).
  exists x, yx, x', yx', z. split; [intros ? ? ? o i _ _; reflexivity|]. split; [intros v o i Ho Hi; cbn; ring|].
  split; [reflexivity|split; [exact Cx|split; [exact Ex'|split; [exact Cx'|split; [exact Ez|]]]]].
  intros (Es & Eq). destruct M2 as (_ & _ & _ & Hb & _).
  assert (V2 : valid (shape y1) [0; 0; 0]%nat) by (rewrite Sy1, Sy; repeat constructor).
  destruct (Hb _ V2) as (j & Vj & (Fj & Cj) & Ej). rewrite <- Es, Sy' in *. rewrite Sy1, Sy in Cj.
  destruct j as [|a [|c [|e [|? ?]]]]; try (apply valid_nth in Vj as (LL & _); discriminate). cbn in Fj; injection Fj as -> ->.
  specialize (Cj 0%nat ltac:(lia)); unfold coord, axis, mirror in Cj; cbn -[Rmult Rplus INR Rdiv] in Cj; cbn in Cj.
  assert (e = 1%nat) as -> by (apply INR_eq; cbn; lra).
  specialize (Eq [0; 0; 1]%nat ltac:(repeat constructor)).
  rewrite Ej, F2 in Eq; cbn in Eq; unfold mid in Eq; cbn in Eq. rewrite Vy, Vy1' in Eq; cbn in Eq; lra.
Qed.
