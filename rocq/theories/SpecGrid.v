(** Moving the samples of a grid, said without the model. *)
From Coq Require Import Reals List.
From Verif Require Import LibMat GridModel.
Import ListNotations.
Open Scope R_scope.

(** A permutation matrix with signs *)
Definition signed_perm (n : nat) (M : mat) : Prop :=
  exists (p : nat -> nat) (s : nat -> R),
    (forall i, (i < n)%nat -> (p i < n)%nat) /\
    (forall i j, (i < n)%nat -> (j < n)%nat -> p i = p j -> i = j) /\
    (forall i, (i < n)%nat -> s i = 1 \/ s i = -1) /\
    forall i j, (i < n)%nat -> (j < n)%nat -> M i j = if Nat.eqb j (p i) then s i else 0.

(** A valid index of an array of the given shape *)
Definition valid (sh idx : list nat) : Prop := Forall2 lt idx sh.

(** The array has [d] leading axes followed by the axes -x_{n-1}, ..., -x_1, x_0.
    The coordinate x_k of an index, measured from the centre of the grid: *)
Definition axis (d n k : nat) : nat := (d + (n - 1 - k))%nat.
Definition coord (d n : nat) (sh idx : list nat) (k : nat) : R :=
  let c := INR (nth (axis d n k) idx 0%nat) - (INR (nth (axis d n k) sh 0%nat) - 1) / 2 in
  if Nat.eqb k 0 then c else - c.

(** Index [idx'] of an array of shape [sh'] lies where [M] takes index [idx] of
    an array of shape [sh]. *)
Definition image (d n : nat) (M : mat) (sh idx sh' idx' : list nat) : Prop :=
  firstn d idx' = firstn d idx /\
  forall k, (k < n)%nat -> coord d n sh' idx' k = sumn n (fun j => M k j * coord d n sh idx j).

(** [y] is [x] moved by [M]. *)
Definition moved {A} (d n : nat) (M : mat) (x y : array A) : Prop :=
  length (shape y) = length (shape x) /\ firstn d (shape y) = firstn d (shape x) /\
  (forall k j, (k < n)%nat -> (j < n)%nat -> M k j <> 0 ->
     nth (axis d n k) (shape y) 0%nat = nth (axis d n j) (shape x) 0%nat) /\
  (forall idx, valid (shape x) idx -> exists idx', valid (shape y) idx' /\
     image d n M (shape x) idx (shape y) idx' /\ entry y idx' = entry x idx) /\
  (forall idx', valid (shape y) idx' -> exists idx, valid (shape x) idx /\
     image d n M (shape x) idx (shape y) idx' /\ entry y idx' = entry x idx).

(** Arrays with the same entries *)
Definition same_array {A} (x y : array A) : Prop :=
  shape x = shape y /\ forall idx, valid (shape x) idx -> entry x idx = entry y idx.
