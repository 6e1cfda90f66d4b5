(** Matrices that commute with the group on field types. *)
From Coq Require Import Reals List.
From Verif Require Import LibRes LibMat FieldModel RepModel LayerModel ImageModel RdConvModel.
Open Scope R_scope.

(** P(g) W = W Q(g) for every element [g] of the group, where P and Q are the
    representations of the output and input type. *)
Definition equivariant_matrix {A T} (rep : A -> repr T) (mem : T -> Prop) (ins outs : list A) (W : mat) : Prop :=
  forall g P Q, mem g -> fiber_matrix rep outs g = Ret P -> fiber_matrix rep ins g = Ret Q ->
  meq (type_size (asize rep) outs) (type_size (asize rep) ins)
    (mmul (type_size (asize rep) outs) P W) (mmul (type_size (asize rep) ins) W Q).
