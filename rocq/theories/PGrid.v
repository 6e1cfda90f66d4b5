(** Property C26: transforming sampled arrays by symmetries of the grid. *)
From Coq Require Import Reals ZArith List Lia Lra.
From Verif Require Import LibRes LibMat GridModel SpecGrid GridThms.
Import ListNotations.
Open Scope R_scope.

Theorem C26_moves : forall half : R -> R, half 0 = 0 -> half 1 = 1 -> half (-1) = -1 ->
  forall A affine (x : array A) n M, signed_perm n M -> (n <= length (shape x))%nat ->
  exists y, linear_transform half affine x n n M true = Ret y /\ moved (length (shape x) - n) n M x y.
Proof. exact moves. Qed.
Print Assumptions C26_moves.

Theorem C26_composition : forall half : R -> R, half 0 = 0 -> half 1 = 1 -> half (-1) = -1 ->
  forall A affine (x : array A) n M N, signed_perm n M -> signed_perm n N -> (n <= length (shape x))%nat ->
  exists y z w, linear_transform half affine x n n M true = Ret y /\ linear_transform half affine y n n N true = Ret z /\
    linear_transform half affine x n n (mmul n N M) true = Ret w /\ same_array z w.
Proof. exact composes. Qed.
Print Assumptions C26_composition.

Theorem C26_identity : forall half : R -> R, half 0 = 0 -> half 1 = 1 -> half (-1) = -1 ->
  forall A affine (x : array A) n, (n <= length (shape x))%nat ->
  exists y, linear_transform half affine x n n mid true = Ret y /\ same_array x y.
Proof. exact identity_ok. Qed.
Print Assumptions C26_identity.

(** The rotation by a right angle, on an array with one leading axis *)
Example C26_ex : signed_perm 2 (fun i j => match i, j with 0%nat, 1%nat => -1 | 1%nat, 0%nat => 1 | _, _ => 0 end) /\
  (2 <= length (shape {| shape := [5; 3; 4]; entry := fun i : list nat => nth 1 i 0 |}))%nat.
Proof.
  split; [|cbn; lia].
  exists (fun i => 1 - i)%nat, (fun i => match i with 0%nat => -1 | _ => 1 end); repeat split.
  - intros; lia.
  - intros; lia.
  - intros [|[|i]] H; [right|left|lia]; reflexivity.
  - intros [|[|i]] [|[|j]] Hi Hj; try lia; reflexivity.
Qed.
