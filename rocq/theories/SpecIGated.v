(** What a gated nonlinearity on induced representations should do. *)
From Coq Require Import Reals List Arith.
From Verif Require Import LibMat SpecNonlin.
Import ListNotations.
Open Scope R_scope.

(** [p] permutes the numbers below [q]. *)
Definition shuffles (q : nat) (p : nat -> nat) : Prop :=
  (forall j, (j < q)%nat -> (p j < q)%nat) /\ (forall j k, (j < q)%nat -> (k < q)%nat -> p j = p k -> j = k).
(** [M] carries block [j] of size [s] to block [p j], by some matrix: the matrices
    of a representation induced from a subgroup of index [q]. *)
Definition carries (q s : nat) (p : nat -> nat) (M : mat) : Prop :=
  exists O : nat -> mat, forall i a j b, (i < q)%nat -> (a < s)%nat -> (j < q)%nat -> (b < s)%nat ->
    M (i * s + a)%nat (j * s + b)%nat = if Nat.eqb i (p j) then O j a b else 0.
(** The matrix of [p]: the quotient representation. *)
Definition permutation_matrix (q : nat) (p : nat -> nat) (M : mat) : Prop :=
  forall i j, (i < q)%nat -> (j < q)%nat -> M i j = if Nat.eqb i (p j) then 1 else 0.
