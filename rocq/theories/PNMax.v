(** C74: NormMaxPool. *)
From Coq Require Import Reals List ZArith Arith.
From Verif Require Import LibRes LibMat FieldModel GroupedModel NonlinModel GridModel SpecGrid ImageModel ShapeModel SPoolModel SpecSPool NMaxModel SpecNMax NMaxThms ImageEx NMaxEx.
Import ListNotations.
Open Scope R_scope.

(** Every field of the output is the field of the input at a point under the window
    where it is longest, and the predicted shape is the computed one. *)
Theorem C74_value : forall A (size : A -> nat) teqb ft, Forall (fun r => (0 < size r)%nat) ft -> ft <> [] ->
  forall dim l m, mk_nm size dim ft l = Ret m -> forall junk, length junk = type_size size ft ->
  forall x y B h w, shape x = [B; type_size size ft; h; w] -> nm_forward size teqb m ft junk x = Ret y ->
  exists os, length os = 2%nat /\ shape y = B :: type_size size ft :: os /\ nm_eval_shape size m (map Z.of_nat (shape x)) = Ret (map Z.of_nat (shape y)) /\
    forall i bt pos, (i < length ft)%nat -> valid os pos ->
      exists q, longest_at (under (m_kernel l) (m_stride l) (m_padding l) (m_dilation l) [h; w] pos) (field_at size ft x i bt) q /\
        field_at size ft y i bt pos = field_at size ft x i bt q.
Proof. exact (@nm_value). Qed.
Print Assumptions C74_value.

(** Tensors of other types are refused. *)
Theorem C74_typed : forall A (size : A -> nat) teqb dim ft l m, mk_nm size dim ft l = Ret m ->
  forall xt junk x y, nm_forward size teqb m xt junk x = Ret y -> teqb xt ft = true.
Proof. exact (@nm_typed). Qed.
Print Assumptions C74_typed.

(** Where the windows fit and no window has two different longest vectors of a field,
    the layer commutes with the symmetries of the grid, for all field types with
    orthogonal matrices. *)
Theorem C74_commutes : forall half, half 0 = 0 -> half 1 = 1 -> half (-1) = -1 -> forall affine A (size : A -> nat) teqb ft,
  Forall (fun r => (0 < size r)%nat) ft -> ft <> [] -> teqb ft ft = true ->
  forall dim l m junk, mk_nm size dim ft l = Ret m -> length junk = type_size size ft ->
  forall (rho : A -> mat) M B h w x y, signed_perm 2 M -> Forall (fun r => orthogonal (size r) (rho r)) ft ->
  shape x = [B; type_size size ft; h; w] -> Forall (fits (m_kernel l) (m_stride l) (m_padding l) (m_dilation l)) [h; w] ->
  nm_forward size teqb m ft junk x = Ret y ->
  (forall i bt pos, (i < length ft)%nat -> (bt < B)%nat -> valid (skipn 2 (shape y)) pos ->
     no_ties (under (m_kernel l) (m_stride l) (m_padding l) (m_dilation l) [h; w] pos) (field_at size ft x i bt)) ->
  let rep := fiber_representation size rho ft in let c := type_size size ft in
  exists x' y' z, transform half affine c rep 2 M x = Ret x' /\ nm_forward size teqb m ft junk x' = Ret y' /\ transform half affine c rep 2 M y = Ret z /\ same_array y' z.
Proof. exact (@nm_commutes). Qed.
Print Assumptions C74_commutes.
Example C74_ex : exists m y, mk_nm idn 2 mixed two_layer = Ret m /\ nm_forward idn same m mixed (repeat (fun _ _ => 0) 3) rising = Ret y /\
  signed_perm 2 quarter /\ Forall (fun r => orthogonal (idn r) (turn_of r)) mixed /\ Forall (fits 2 2 0 1) [4; 6]%nat /\
  forall i bt pos, (i < 2)%nat -> (bt < 1)%nat -> valid (skipn 2 (shape y)) pos -> no_ties (under 2 2 0 1 [4; 6]%nat pos) (field_at idn mixed rising i bt).
Proof. exact nm_example. Qed.

(** Ties break it: a scalar field with the values 1 and -1 in one window, turned by a
    half turn. *)
Theorem C74_ties_refuted : forall half, half 0 = 0 -> half 1 = 1 -> half (-1) = -1 -> forall affine,
  exists m x y x' y' z, mk_nm idn 2 one_type two_layer = Ret m /\ shape x = [1; 1; 2; 2]%nat /\ nm_forward idn same m one_type nothing x = Ret y /\
    transform half affine 1 mid 2 mirror x = Ret x' /\ nm_forward idn same m one_type nothing x' = Ret y' /\ transform half affine 1 mid 2 mirror y = Ret z /\ ~ same_array y' z.
Proof. exact ties_break. Qed.
Print Assumptions C74_ties_refuted.
