(** What the pooling maps and the channel-wise nonlinearities should do. *)
From Coq Require Import Reals List Arith Permutation.
From Verif Require Import LibMat SpecField SpecNonlin.
Import ListNotations.
Open Scope R_scope.

(** [m] is the largest entry of [v]. *)
Definition is_max (m : R) (v : list R) : Prop := In m v /\ forall a, In a v -> a <= m.
(** [M] is the matrix of a permutation of the [n] coordinates. *)
Definition permutes (n : nat) (M : mat) : Prop :=
  exists p : nat -> nat, (forall j, (j < n)%nat -> (p j < n)%nat) /\
    (forall j k, (j < n)%nat -> (k < n)%nat -> p j = p k -> j = k) /\
    forall i j, (i < n)%nat -> (j < n)%nat -> M i j = if Nat.eqb i (p j) then 1 else 0.
(** [M] permutes the coordinates and changes the sign of some of them. *)
Definition permutes_signed (n : nat) (M : mat) : Prop :=
  exists (p : nat -> nat) (e : nat -> R), (forall j, (j < n)%nat -> (p j < n)%nat) /\
    (forall j k, (j < n)%nat -> (k < n)%nat -> p j = p k -> j = k) /\
    (forall j, (j < n)%nat -> e j = 1 \/ e j = -1) /\
    forall i j, (i < n)%nat -> (j < n)%nat -> M i j = if Nat.eqb i (p j) then e j else 0.
(** Every value followed by the value of its opposite. *)
Definition both (f : R -> R) (x : list R) : list R := flat_map (fun a => [f a; f (- a)]) x.
(** The cyclic shift of a field of the regular representation of C_N by [k]:
    the value at position [i] moves to [i + k]. *)
Definition shifted (N k : nat) (v w : list R) : Prop :=
  length v = N /\ length w = N /\ forall i, (i < N)%nat -> nth ((i + k) mod N) w 0 = nth i v 0.
(** At most one position holds the largest value, or it is not positive. *)
Definition clear_max (v : list R) : Prop :=
  (forall a, In a v -> a <= 0) \/
  exists i, (i < length v)%nat /\ forall j, (j < length v)%nat -> j <> i -> nth j v 0 < nth i v 0.
