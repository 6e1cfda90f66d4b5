(** Intertwiners of two representations, and bases of spaces of matrices, said
    without the model. *)
From Coq Require Import Reals List.
From Verif Require Import LibRes LibMat.
Open Scope R_scope.

(** [X] maps the representation [rin] of size [ni] into [rout] of size [no]:
    A(g) X = X B(g) for every [g]. *)
Definition intertwiner {T} (mem : T -> Prop) (no : nat) (rout : T -> res (nat * mat)) (ni : nat) (rin : T -> res (nat * mat))
    (X : mat) : Prop :=
  forall g A B, mem g -> rout g = Ret (no, A) -> rin g = Ret (ni, B) -> meq no ni (mmul no A X) (mmul ni X B).

(** the combination of the first [d] matrices of [S] with the coefficients [w] *)
Definition combination (d : nat) (w : nat -> R) (S : nat -> mat) : mat := fun a b => sumn d (fun i => w i * S i a b).

(** The first [d] matrices of [S] are a basis of the space [V] of [no] x [ni]
    matrices: they belong to it, they span it, and they are independent. *)
Definition basis_of (V : mat -> Prop) (no ni d : nat) (S : nat -> mat) : Prop :=
  (forall i, (i < d)%nat -> V (S i)) /\
  (forall X, V X -> exists w, meq no ni X (combination d w S)) /\
  (forall w, meq no ni (combination d w S) mzero -> forall i, (i < d)%nat -> w i = 0).

(** the sum of the squares of the entries *)
Definition square_sum (no ni : nat) (X : mat) : R := sumn no (fun a => sumn ni (fun b => X a b * X a b)).
