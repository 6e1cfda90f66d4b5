(** Bases of spaces of matrices, and intertwiners. *)
From Coq Require Import Reals List.
From Verif Require Import LibRes LibMat SpecRep.
Import ListNotations.
Open Scope R_scope.

(** The n x m matrices [basis] are linearly independent and their combinations
    are the matrices with the property [P]. *)
Definition basis_of (n m : nat) (P : mat -> Prop) (basis : list mat) : Prop :=
  (forall X, P X <-> exists cs, length cs = length basis /\ meq n m X (lincomb cs basis)) /\
  (forall cs, length cs = length basis -> meq n m (lincomb cs basis) mzero -> Forall (fun c => c = 0) cs).
(** [X] intertwines the representation [rho] of size m with [rho'] of size n. *)
Definition intertwines {T} (mem : T -> Prop) (m n : nat) (rho rho' : T -> res (nat * mat)) (X : mat) : Prop :=
  forall g A B, mem g -> rho g = Ret (m, A) -> rho' g = Ret (n, B) -> meq n m (mmul n B X) (mmul m X A).
