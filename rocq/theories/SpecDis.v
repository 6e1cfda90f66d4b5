(** Connected components, clear-cut matrices and linked axes, said without
    the model of `disentangle`. *)
From Coq Require Import Reals ZArith List Relations.
From Verif Require Import LibRes LibMat RepModel.
Import ListNotations.
Open Scope R_scope.

(** [a] and [b] are connected in the undirected graph [g] on 0..n-1 *)
Definition connected (n : nat) (g : nat -> nat -> bool) : nat -> nat -> Prop :=
  clos_refl_sym_trans nat (fun a b => (a < n)%nat /\ (b < n)%nat /\ g a b = true).

(** The contract of scipy's connected_components. *)
Definition correct_components (comp : nat -> (nat -> nat -> bool) -> nat * (nat -> nat)) : Prop :=
  forall n g, (forall a, (a < n)%nat -> (snd (comp n g) a < fst (comp n g))%nat) /\
    (forall b, (b < fst (comp n g))%nat -> exists a, (a < n)%nat /\ snd (comp n g) a = b) /\
    (forall a b, (a < n)%nat -> (b < n)%nat -> (snd (comp n g) a = snd (comp n g) b <-> connected n g a b)).

(** No entry is close to 0 or to 1 without being equal to it. *)
Definition clear_cut (n : nat) (A : mat) : Prop := forall i j, (i < n)%nat -> (j < n)%nat ->
  (Rabs (A i j) <= / 10 ^ 8 -> A i j = 0) /\ (Rabs (A i j - 1) <= / 10 ^ 8 + / 10 ^ 5 -> A i j = 1).

(** The columns [c] and [c'] belong to the same irrep. *)
Definition same_irrep (sizes : list nat) (c c' : nat) : Prop := exists k, (k < length sizes)%nat /\
  (list_sum (firstn k sizes) <= c < list_sum (firstn (S k) sizes))%nat /\
  (list_sum (firstn k sizes) <= c' < list_sum (firstn (S k) sizes))%nat.

(** Axes related by a chain of irreps to which both neighbours contribute. *)
Definition linked (n : nat) (cob : mat) (sizes : list nat) : nat -> nat -> Prop :=
  clos_refl_sym_trans nat (fun i j => (i < n)%nat /\ (j < n)%nat /\
    exists c c', (c < n)%nat /\ (c' < n)%nat /\ same_irrep sizes c c' /\ cob i c <> 0 /\ cob j c' <> 0).
