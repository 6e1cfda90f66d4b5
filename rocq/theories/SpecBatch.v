(** What batch normalisations should do. *)
From Coq Require Import Reals List Arith.
From Verif Require Import LibMat SpecField SpecNonlin.
Import ListNotations.
Open Scope R_scope.

(** The values at one point of a batch given by its channels. *)
Definition point (x : list (list R)) (p : nat) : list R := map (fun c => nth p c 0) x.
(** The channels of a type at [N] points. *)
Definition batch {A} (size : A -> nat) (ft : list A) (N : nat) (x : list (list R)) : Prop :=
  length x = list_sum (map size ft) /\ Forall (fun c => length c = N) x.
Definition reorders (N : nat) (pi : nat -> nat) : Prop :=
  (forall p, (p < N)%nat -> (pi p < N)%nat) /\ (forall p q, (p < N)%nat -> (q < N)%nat -> pi p = pi q -> p = q).
(** The points of [y] are the points of [x] in another order, each transformed
    by the matrices of some group element. *)
Definition moved_batch {A} (size : A -> nat) (ft : list A) (N : nat) (rho : nat -> A -> mat) (pi : nat -> nat) (x y : list (list R)) : Prop :=
  batch size ft N x /\ batch size ft N y /\ forall p, (p < N)%nat -> acts size ft (rho p) (point x (pi p)) (point y p).
(** The squared norms of a field over all the points. *)
Definition energy (N : nat) (v : list (list R)) : R := sumn N (fun p => sumn (length v) (fun c => nth p (nth c v []) 0 * nth p (nth c v []) 0)).
(** The sum of the values of a field, and of their squared distances to [m]. *)
Definition total (N : nat) (v : list (list R)) : R := sumn N (fun p => sumn (length v) (fun c => nth p (nth c v []) 0)).
Definition scatter (N : nat) (m : R) (v : list (list R)) : R :=
  sumn N (fun p => sumn (length v) (fun c => (nth p (nth c v []) 0 - m) * (nth p (nth c v []) 0 - m))).
(** The number kept for the [j]-th field of size [s]. *)
Definition kept (d : list (nat * list R)) (s j : nat) : R :=
  match find (fun e => Nat.eqb (fst e) s) d with Some e => nth j (snd e) 0 | None => 0 end.
(** Field [i] is the [j]-th one of size [s]. *)
Definition rank {A} (size : A -> nat) (ft : list A) (i s j : nat) : Prop := nth_error (labelled Nat.eqb (map size ft) s) j = Some i.
(** [old] moved by the fraction [f] towards [new]. *)
Definition towards (f old new : R) : R := (1 - f) * old + f * new.
