(** Images, said without the model. *)
From Coq Require Import Reals List.
From Verif Require Import LibMat GridModel SpecGrid.
Import ListNotations.
Open Scope R_scope.

(** Squared distance of pixel [k] of a grid of [s] pixels along each axis from
    the centre of the grid *)
Definition dist2 (s : nat) (k : list nat) : R := sumn (length k) (fun a => (INR (nth a k 0%nat) - (INR s - 1) / 2) ^ 2).

(** [rho] acts on the first [groups] blocks of size [c] by the same matrix [A] *)
Definition repeats (groups c : nat) (rho A : mat) : Prop := forall i j, (i < groups * c)%nat -> (j < groups * c)%nat ->
  rho i j = if Nat.eqb (i / c) (j / c) then A (i mod c) (j mod c) else 0.

(** [rho] has no entry outside [groups] square blocks *)
Definition in_blocks (groups c : nat) (rho : mat) : Prop := forall i j, (i < c)%nat -> (j < c)%nat ->
  (i / (c / groups))%nat <> (j / (c / groups))%nat -> rho i j = 0.

(** A kernel on R^n with values in matrices of size cout x cin *)
Definition kernel_on (n cout cin : nat) (K : (nat -> R) -> mat) : Prop := forall x y, (forall j, (j < n)%nat -> x j = y j) ->
  forall o i, (o < cout)%nat -> (i < cin)%nat -> K x o i = K y o i.

(** It is steerable for the element that acts by [M] on R^n, by [A] on the input
    and by [B] on the output. *)
Definition steers (n cout cin : nat) (M A B : mat) (K : (nat -> R) -> mat) : Prop := forall x o i, (o < cout)%nat -> (i < cin)%nat ->
  sumn cin (fun j => K (mvec n M x) o j * A j i) = sumn cout (fun j => B o j * K x j i).
