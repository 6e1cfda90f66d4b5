(** Max pooling by norms, said without the model. *)
From Coq Require Import Reals List Arith.
From Verif Require Import LibMat SpecField GridModel SpecSPool.
Import ListNotations.
Open Scope R_scope.

(** The vector of the field [i] of the batch entry [bt] at the point [q]. *)
Definition field_at {A} (size : A -> nat) (ft : list A) (x : array R) (i bt : nat) (q : list nat) : list R :=
  field_chans size ft (map (fun o => entry x (bt :: o :: q)) (seq 0 (list_sum (map size ft)))) i.

Definition norm2 (v : list R) : R := fold_right Rplus 0 (map (fun a => a * a) v).

(** The point [q] is one of [P] and the field [f] is as long there as anywhere on [P]. *)
Definition longest_at (P : list nat -> Prop) (f : list nat -> list R) (q : list nat) : Prop :=
  P q /\ forall q', P q' -> norm2 (f q') <= norm2 (f q).

(** The field has the same value at all points where it is longest. *)
Definition no_ties (P : list nat -> Prop) (f : list nat -> list R) : Prop :=
  forall q q', longest_at P f q -> longest_at P f q' -> f q = f q'.
