(** What dropout of whole fields should do. *)
From Coq Require Import Reals List Arith.
From Verif Require Import SpecField SpecNonlin.
Import ListNotations.
Open Scope R_scope.

(** The factor of a field whose random number is [u]: dropped fields become
    zero and the others are scaled so that the mean is kept. *)
Definition drop_factor (p u : R) : R := if Rle_dec u p then 0 else 1 / (1 - p).

(** No field of another size lies between two fields of size [s]. *)
Definition adjacent {A} (size : A -> nat) (ft : list A) (s : nat) : Prop :=
  forall i j k q, (i < j < k)%nat -> nth_error (map size ft) i = Some s -> nth_error (map size ft) k = Some s ->
    nth_error (map size ft) j = Some q -> q = s.
